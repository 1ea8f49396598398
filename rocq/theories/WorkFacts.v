(** The instructions executed are the work the rules and the text ask for. *)
From Coq Require Import String List NArith Arith Bool Lia.
From Verif Require Import Base Ident Tokenizer Ast Lex Syntax Io Graph Machine MachineSteps SpecText SpecSyntax TextFacts SyntaxFacts SpecParse SpecWork Pure PureFacts PureSteps ParseFacts CodeFacts RunFacts RunComplete EvFacts.
Import ListNotations.
Open Scope nat_scope.

Section Work.
Variable rules : list rule.
Variable cfg : config.
Variable g : graph.
Hypothesis Hg : faithful cfg rules g.
Notation ev := (ev rules cfg).
Notation work := (work rules cfg).
Notation code := (code cfg (g_instrs g)).
Notation at_ := (at_ (g_instrs g)).
Notation run f := (prun g f None).
Notation cnt f := (psteps g f None).
Notation comp := (comp cfg g).

Definition cconcl (i : nat) (ex : option nat) (evs : list event) (s : pst) (o : outcome) (k : nat) : Prop :=
  match o with
  | Match s' e => forall m, finally (fun f => cnt f ex (evs ++ e) s') m -> finally (fun f => cnt f (Some i) evs s) (k + m)
  | _ => finally (fun f => cnt f (Some i) evs s) k
  end.
Definition ccomp (n : node) (s : pst) (o : outcome) (k : nat) : Prop :=
  match n with
  | NTimes mn mx j b => forall sub temp, code b sub None -> exists f0, forall f fl, f0 <= f -> f0 <= fl ->
      prep_steps (fun evs => run f (Some sub) evs) (fun evs => cnt f (Some sub) evs) fl mn mx j temp s = k
  | NAlts ds => forall subs, codes cfg (g_instrs g) ds subs -> exists f0, forall f, f0 <= f ->
      por_steps (fun a => run f (Some a) []) (fun a => cnt f (Some a) []) subs s = k
  | NRef l id => forall i next sym evs, at_ i next (StAlias id) l sym -> cconcl i next evs s o k
  | NFwd id => forall a evs, g_label g id = Some a -> finally (fun f => cnt f (Some a) evs s) k
  | _ => forall i next evs, code n i next -> ends n next -> cconcl i (exit n next) evs s o k
  end.
Lemma cnt_none : forall f evs s, cnt f None evs s = 0.
Proof. intros [|f] evs s; reflexivity. Qed.
Lemma cconcl_none : forall i evs s o k, cconcl i None evs s o k -> finally (fun f => cnt f (Some i) evs s) k.
Proof.
  intros i evs s [s' e|l s' e|h] k H; auto. rewrite <- (Nat.add_0_r k). apply H. exists 0. intros f _. apply cnt_none.
Qed.
Lemma ccomp_sub : forall n s o k i evs, ccomp n s o k -> code n i None -> finally (fun f => cnt f (Some i) evs s) k.
Proof.
  intros n s o k i evs H Hc.
  assert (K : cconcl i None evs s o k).
  { destruct n; cbn [ccomp] in H.
    - exact (H i None evs Hc I).
    - inversion Hc.
    - exact (H i None evs Hc eq_refl).
    - pose proof (H i None evs Hc I) as K. rewrite exit_none in K. exact K.
    - pose proof (H i None evs Hc I) as K. rewrite exit_none in K. exact K.
    - pose proof (H i None evs Hc I) as K. rewrite exit_none in K. exact K.
    - inversion Hc.
    - inversion Hc.
    - inversion Hc. }
  exact (cconcl_none _ _ _ _ _ K).
Qed.
Lemma cstep : forall i next evs s s' e k, (exists f0, forall f, f0 <= f -> cnt (S f) (Some i) evs s = k + cnt f next (evs ++ e) s') ->
  cconcl i next evs s (Match s' e) k.
Proof.
  intros i next evs s s' e k (f0 & H) m (f1 & Hx). exists (S (f0 + f1)). intros [|f] Hf; [lia|]. rewrite H by lia. rewrite Hx by lia. reflexivity.
Qed.
Lemma cend : forall i evs s k, (exists f0, forall f, f0 <= f -> cnt (S f) (Some i) evs s = k) -> finally (fun f => cnt f (Some i) evs s) k.
Proof. intros i evs s k (f0 & H). exists (S f0). intros [|f] Hf; [lia|]. apply H. lia. Qed.

(** One instruction. *)
Lemma cnt_at : forall f i next st def evs s sym, nth_error (g_instrs g) i = Some (Instr next sym def st) ->
  cnt (S f) (Some i) evs s = S
  ((let continue (pe : prospect * list event) :=
     let '(p, evs) := pe in match p with NotThisWay _ => pnothing | Proceed => cnt f next evs end in
   match st with
   | StRepetition min max sub =>
       pboth (prep_steps (fun evs => run f (Some sub) evs) (fun evs => cnt f (Some sub) evs) f min max 0%N [])
         (uponp o := prep_loop (fun evs => run f (Some sub) evs) f min max 0%N [] in
          match o with inl _ => pnothing | inr temp => cnt f next (evs ++ temp) end)
   | StOr subs =>
       pboth (por_steps (fun a => run f (Some a) []) (fun a => cnt f (Some a) []) subs)
         (uponp o := por_loop (fun a => run f (Some a) []) subs in
          match o with inl _ => pnothing | inr temp => cnt f next (evs ++ temp) end)
   | StAlias id =>
       match g_label g id with
       | None => pnothing
       | Some address =>
           match g_canonical g id with
           | None => pnothing
           | Some name =>
               uponp l := ploc in
               pboth (cnt f (Some address) [EvBegin def l name])
               (uponp (p, temp) := run f (Some address) [EvBegin def l name] in
               match p with
               | NotThisWay _ => pnothing
               | Proceed => uponp l := ploc in cnt f next (evs ++ temp ++ [EvEnd def l name])
               end)
           end
       end
   | StTerminal w => uponp pe := pterminal_step g None i (Instr next sym def st) w evs in continue pe
   | StSpecial sc =>
       pboth (pspecial_steps g None (fun a evs => cnt f (Some a) evs) f (Instr next sym def st) sc evs)
         (uponp pe := pspecial_step g (fun a evs => run f (Some a) evs) None f i (Instr next sym def st) sc evs in continue pe)
   | StEmpty => continue (Proceed, evs)
   | StExcept fa ex =>
       pboth (pexcept_steps (fun a evs => run f (Some a) evs) (fun a evs => cnt f (Some a) evs) (fun a evs => cnt f (Some a) evs) f fa ex)
         (uponp pe := pexcept_scan g (fun en a evs => prun g f en (Some a) evs) None f i fa ex evs in continue pe)
   end) s).
Proof. intros f i next st def evs s sym H. cbn [psteps]. rewrite H. reflexivity. Qed.
Lemma pupon_cong : forall {A} (m m' : P A) (k : A -> pst -> nat) r r', m r = m' r' -> pupon m k r = pupon m' k r'.
Proof. intros A m m' k r r' H. unfold pupon. rewrite H. reflexivity. Qed.
Lemma pupon_halt : forall {A} (m : P A) k s h,
  match h with Failed er => exists s', m s = (Err er, s') | Crashed => exists p s', m s = (Panic p, s') end -> pupon m k s = 0.
Proof.
  intros A m k s [er|] H; cbn in H.
  - destruct H as (s' & H). unfold pupon. rewrite H. reflexivity.
  - destruct H as (p & s' & H). unfold pupon. rewrite H. reflexivity.
Qed.
Lemma answers_halt : forall x evs h, answers x evs (Halt h) ->
  match h with Failed er => exists s', x = (Err er, s') | Crashed => exists p s', x = (Panic p, s') end.
Proof. intros x evs [er|] H; exact H. Qed.

(** Repetitions. *)
Lemma crep : forall mn mx b s o k i next sub l sym evs, comp (NTimes mn mx 0 b) s o -> ccomp (NTimes mn mx 0 b) s o k ->
  at_ i next (StRepetition mn mx sub) l sym -> code b sub None -> cconcl i next evs s o (1 + k).
Proof.
  intros mn mx b s o k i next sub l sym evs H Hk Hi Hc. destruct (H sub [] Hc) as (f0 & Hf). destruct (Hk sub [] Hc) as (f1 & Hf1).
  assert (E : forall f, f0 + f1 <= f -> cnt (S f) (Some i) evs s = 1 + k + match o with Match s' e => cnt f next (evs ++ e) s' | _ => 0 end).
  { intros f Hle. rewrite (cnt_at _ _ _ _ _ _ _ _ Hi). cbv beta zeta iota. unfold pboth. rewrite Hf1 by lia. specialize (Hf f f ltac:(lia) ltac:(lia)).
    destruct o as [s' e|l' s' e|h]; cbn [rep_answers] in Hf.
    - rewrite (pupon_ok _ _ _ _ _ Hf). reflexivity.
    - destruct Hf as (_ & er & _ & Hx). rewrite (pupon_ok _ _ _ _ _ Hx). unfold pnothing. lia.
    - rewrite (pupon_halt _ _ _ h); [lia|]. exact Hf. }
  destruct o as [s' e|l' s' e|h].
  - apply cstep. exists (f0 + f1). exact E.
  - apply cend. exists (f0 + f1). intros f Hle. rewrite E by exact Hle. lia.
  - apply cend. exists (f0 + f1). intros f Hle. rewrite E by exact Hle. lia.
Qed.
(** References. *)
Lemma cref : forall l id r s o k i next sym, names rules id r -> comp (NDefs (r_defs r)) s o -> ccomp (NDefs (r_defs r)) s o k ->
  at_ i next (StAlias id) l sym -> forall evs,
  cconcl i next evs s (match o with
    | Match s' e => Match s' ((EvBegin l (p_at s) (r_id r) :: e) ++ [EvEnd l (p_at s') (r_id r)])
    | No l s' e => No l s' []
    | Halt h => Halt h end) (1 + k).
Proof.
  intros l id r s o k i next sym Hr H Hk Hi evs. destruct (Hg id) as (HA & _). destruct (HA r Hr) as (a & Hla & Hca & Hcn).
  destruct (comp_sub _ _ _ _ _ _ [EvBegin l (p_at s) (r_id r)] H Hca) as (f0 & Hf).
  destruct (ccomp_sub _ _ _ _ _ [EvBegin l (p_at s) (r_id r)] Hk Hca) as (f1 & Hf1).
  assert (E : forall f, f0 + f1 <= f -> cnt (S f) (Some i) evs s = 1 + k + match o with
     | Match s' e => cnt f next (evs ++ (EvBegin l (p_at s) (r_id r) :: e) ++ [EvEnd l (p_at s') (r_id r)]) s' | _ => 0 end).
  { intros f Hle. rewrite (cnt_at _ _ _ _ _ _ _ _ Hi). cbv beta zeta iota. rewrite Hla, Hcn. rewrite (pupon_ok ploc _ s _ _ eq_refl).
    unfold pboth. rewrite Hf1 by lia. specialize (Hf f ltac:(lia)).
    destruct o as [s' e|l' s' e|h]; cbn [answers] in Hf.
    - rewrite (pupon_ok _ _ _ _ _ Hf). cbv beta iota. rewrite (pupon_ok ploc _ s' _ _ eq_refl). reflexivity.
    - destruct Hf as (er & _ & Hx). rewrite (pupon_ok _ _ _ _ _ Hx). unfold pnothing. lia.
    - rewrite (pupon_halt _ _ _ h); [lia|]. exact Hf. }
  destruct o as [s' e|l' s' e|h].
  - apply cstep. exists (f0 + f1). exact E.
  - apply cend. exists (f0 + f1). intros f Hle. rewrite E by exact Hle. lia.
  - apply cend. exists (f0 + f1). intros f Hle. rewrite E by exact Hle. lia.
Qed.
(** Forwarding. *)
Lemma cforward : forall l c s id s1 o k i next, scanned (cfg l c) l s (SForward id s1) -> comp (NFwd id) s1 o -> ccomp (NFwd id) s1 o k ->
  (exists a, g_label g id = Some a) ->
  nth_error (g_instrs g) i = Some (Instr next (scanner_symbol (cfg l c)) l (StSpecial (cfg l c))) -> forall evs,
  cconcl i next evs s (match o with No _ s2 e => Match s2 e | _ => o end) (1 + k).
Proof.
  intros l c s id s1 o k i next Hsc H Hk (a & Hla) Hi evs. destruct (H a evs Hla) as (f0 & Hf). destruct (Hk a evs Hla) as (f1 & Hf1).
  assert (E : forall f, f0 + f1 + S (length (p_rest s)) <= f -> cnt (S f) (Some i) evs s = 1 + k + match o with
     | Match s2 e | No _ s2 e => cnt f next (evs ++ e) s2 | _ => 0 end).
  { intros f Hle. rewrite (cnt_at _ _ _ _ _ _ _ _ Hi). cbv beta zeta iota. unfold pspecial_step, pspecial_steps. cbn [i_def i_symbol].
    pose proof (scan_known f _ _ _ _ Hsc ltac:(lia)) as Hs. destruct (pspecial_scan None f (cfg l c) l s) as (x & s') eqn:Es.
    destruct x as [[evts| |id']|er|pn|]; cbn in Hs; try discriminate; try contradiction. injection Hs as <- <-.
    unfold pboth. rewrite (pupon_ok _ _ _ _ _ Es). cbv beta iota. rewrite Hla. rewrite Hf1 by lia. specialize (Hf f ltac:(lia)).
    change (S (?a + ?b)) with (1 + a + b). f_equal.
    destruct o as [s2 e|l2 s2 e|h]; cbn [answers] in Hf.
    - erewrite pupon_ok. 2:{ rewrite (pbind_ok pget _ s _ _ eq_refl). rewrite (pbind_ok _ _ _ _ _ Es). cbv beta iota. rewrite Hla. rewrite (pbind_ok _ _ _ _ _ Hf). reflexivity. } reflexivity.
    - destruct Hf as (er & _ & Hf). erewrite pupon_ok. 2:{ rewrite (pbind_ok pget _ s _ _ eq_refl). rewrite (pbind_ok _ _ _ _ _ Es). cbv beta iota. rewrite Hla. rewrite (pbind_ok _ _ _ _ _ Hf). reflexivity. } reflexivity.
    - apply (pupon_halt _ _ _ h). rewrite (pbind_ok pget _ s _ _ eq_refl). rewrite (pbind_ok _ _ _ _ _ Es). cbv beta iota. rewrite Hla. destruct h as [er|]; cbn in Hf.
      + destruct Hf as (s2 & Hf). exists s2. apply pbind_err. exact Hf.
      + destruct Hf as (p & s2 & Hf). exists p, s2. apply pbind_panic. exact Hf. }
  destruct o as [s' e|l' s' e|h].
  - apply cstep. exists (f0 + f1 + S (length (p_rest s))). exact E.
  - apply cstep. exists (f0 + f1 + S (length (p_rest s))). exact E.
  - apply cend. exists (f0 + f1 + S (length (p_rest s))). intros f Hle. rewrite E by exact Hle. lia.
Qed.
(** Exceptions. *)
Lemma cexcept : forall fa ex s w s' e o k k2 i next ia ie l sym, comp (NFactor fa) s (Match s' e) -> ccomp (NFactor fa) s (Match s' e) k ->
  goes s w s' -> comp (NFactor ex) (Pst w (p_at s)) o -> ccomp (NFactor ex) (Pst w (p_at s)) o k2 ->
  at_ i next (StExcept ia ie) l sym -> code (NFactor fa) ia None -> code (NFactor ex) ie None -> forall evs,
  cconcl i next evs s (match o with
    | Match s2 _ => match p_rest s2 with [] => No (wanted s sym) s [] | _ => Match s' e end
    | No _ _ _ => Match s' e
    | Halt h => Halt h end) (1 + (k + k2)).
Proof.
  intros fa ex s w s' e o k k2 i next ia ie l sym H1 Hk1 Hw H2 Hk2 Hi Ha He evs. pose proof (pexpected_at g i s _ _ _ _ Hi) as Hwn.
  destruct (comp_sub _ _ _ _ _ _ [] H1 Ha) as (f1 & Hf1). destruct (comp_sub _ _ _ _ _ _ [] H2 He) as (f2 & Hf2).
  destruct (ccomp_sub _ _ _ _ _ [] Hk1 Ha) as (f3 & Hf3). destruct (ccomp_sub _ _ _ _ _ [] Hk2 He) as (f4 & Hf4).
  set (F := f1 + f2 + f3 + f4 + S (length w)).
  assert (E : forall f, F <= f -> cnt (S f) (Some i) evs s = 1 + (k + k2) +
     match o with
     | Match s2 _ => match p_rest s2 with [] => 0 | _ => cnt f next (evs ++ e) s' end
     | No _ _ _ => cnt f next (evs ++ e) s'
     | Halt _ => 0 end).
  { intros f Hle. unfold F in Hle. rewrite (cnt_at _ _ _ _ _ _ _ _ Hi). cbv beta zeta iota. unfold pexcept_scan, pexcept_steps, pboth.
    specialize (Hf1 f ltac:(lia)). cbn [answers app] in Hf1. rewrite (pupon_ok pget _ s _ _ eq_refl). rewrite Hf3 by lia.
    rewrite (pupon_ok _ _ _ _ _ Hf1). cbv beta iota. rewrite (pupon_ok pget _ s' _ _ eq_refl). rewrite (between_goes _ _ _ Hw).
    erewrite (pupon_cong (fun s0 => pbind pget _ s0)). 2:{ rewrite (pbind_ok pget _ s _ _ eq_refl). rewrite (pbind_ok _ _ _ _ _ Hf1). rewrite (pbind_ok pget _ s' _ _ eq_refl). rewrite (between_goes _ _ _ Hw). cbv zeta. reflexivity. }
    replace (Nat.ltb (length w) f) with true by (symmetry; apply Nat.ltb_lt; lia). rewrite Hf4 by lia.
    change (S (?a + ?b)) with (1 + a + b). f_equal.
    specialize (Hf2 f ltac:(lia)).
    destruct o as [s2 e2|l2 s2 e2|h]; cbn [answers] in Hf2.
    - erewrite pupon_cong. 2:{ rewrite (pbind_ok _ _ _ _ _ Hf2). rewrite peof_none. cbn [fst]. reflexivity. }
      destruct (p_rest s2) as [|? ?]; [|reflexivity].
      erewrite pupon_ok. 2:{ rewrite (pbind_ok (pput s) _ s' tt s eq_refl). rewrite (pbind_ok _ _ _ _ _ Hwn). reflexivity. } reflexivity.
    - destruct Hf2 as (er & _ & Hf2). erewrite pupon_cong. 2:{ rewrite (pbind_ok _ _ _ _ _ Hf2). cbn [fst pret]. reflexivity. } reflexivity.
    - destruct h as [er|]; cbn in Hf2.
      + destruct Hf2 as (s2 & Hf2). erewrite pupon_cong. 2:{ rewrite (pbind_err _ _ _ _ _ Hf2). cbn [fst]. reflexivity. } reflexivity.
      + destruct Hf2 as (p & s2 & Hf2). erewrite pupon_cong. 2:{ rewrite (pbind_panic _ _ _ _ _ Hf2). cbn [fst]. reflexivity. } reflexivity. }
  destruct o as [s2 e2|l2 s2 e2|h].
  - destruct (p_rest s2) as [|c r] eqn:E2.
    + apply cend. exists F. intros f Hle. rewrite E by exact Hle. lia.
    + apply cstep. exists F. exact E.
  - apply cstep. exists F. exact E.
  - apply cend. exists F. intros f Hle. rewrite E by exact Hle. lia.
Qed.
Lemma cexcept_over : forall fa s o k i next ia ie l sym, comp (NFactor fa) s o -> ccomp (NFactor fa) s o k ->
  at_ i next (StExcept ia ie) l sym -> code (NFactor fa) ia None -> over o -> forall evs,
  finally (fun f => cnt f (Some i) evs s) (1 + k).
Proof.
  intros fa s o k i next ia ie l sym H Hk Hi Ha Ho evs.
  destruct (comp_sub _ _ _ _ _ _ [] H Ha) as (f1 & Hf1). destruct (ccomp_sub _ _ _ _ _ [] Hk Ha) as (f3 & Hf3).
  apply cend. exists (f1 + f3). intros f Hle. rewrite (cnt_at _ _ _ _ _ _ _ _ Hi). cbv beta zeta iota. unfold pexcept_scan, pexcept_steps, pboth.
  specialize (Hf1 f ltac:(lia)). rewrite (pupon_ok pget _ s _ _ eq_refl). rewrite Hf3 by lia.
  destruct o as [s' e|l' s' e|h]; [contradiction (Ho s' e eq_refl)| |].
  - cbn [answers] in Hf1. destruct Hf1 as (er & _ & Hf1). rewrite (pupon_ok _ _ _ _ _ Hf1). cbv beta iota.
    erewrite pupon_ok. 2:{ rewrite (pbind_ok pget _ s _ _ eq_refl). rewrite (pbind_ok _ _ _ _ _ Hf1). rewrite (pbind_ok (pput s) _ s' tt s eq_refl). reflexivity. }
    unfold pnothing. lia.
  - rewrite (pupon_halt (run f (Some ia) []) _ s h) by exact Hf1.
    rewrite (pupon_halt _ _ s h); [lia|]. rewrite (pbind_ok pget _ s _ _ eq_refl). destruct h as [er|]; cbn in Hf1.
    + destruct Hf1 as (s' & Hf1). exists s'. apply pbind_err. exact Hf1.
    + destruct Hf1 as (p & s' & Hf1). exists p, s'. apply pbind_panic. exact Hf1.
Qed.
Lemma over_no : forall x s e, over (No x s e).
Proof. intros x s e s' e' H. discriminate. Qed.
Lemma over_halt : forall h, over (Halt h).
Proof. intros h s' e' H. discriminate. Qed.
Lemma not_forwarded : forall x, (forall id s, x <> SForward id s) -> ~ forwarded x.
Proof. intros x H (id & s & ->). exact (H id s eq_refl). Qed.
Hint Resolve over_no over_halt : core.

Ltac at_hyp Hi := match goal with K : CodeFacts.at_ _ _ _ _ _ _ |- _ => rename K into Hi end.
(** The rounds. *)
Lemma ctimes_last : forall min max j b s o k, (j < max)%N -> comp b s o -> ccomp b s o k ->
  over o \/ max = max_count /\ (exists s' e, o = Match s' e /\ p_at s' = p_at s) -> forall o', ccomp (NTimes min max j b) s o' k.
Proof.
  intros min max j b s o k Hj Hc Hk Ho o' sub temp Hb. destruct (comp_sub _ _ _ _ _ _ temp Hc Hb) as (f0 & Hf).
  destruct (ccomp_sub _ _ _ _ _ temp Hk Hb) as (f1 & Hf1). exists (S (f0 + f1)). intros f [|fl] Hle Hfl; [lia|].
  cbn [prep_steps]. replace (N.ltb j max) with true by (symmetry; apply N.ltb_lt; assumption).
  rewrite (pupon_ok pget _ s _ _ eq_refl). unfold pboth. rewrite Hf1 by lia. specialize (Hf f ltac:(lia)).
  destruct o as [s' e|l' s' e|h]; cbn [answers] in Hf.
  - destruct Ho as [Ho|(-> & s2 & e2 & E & Hat)]; [contradiction (Ho s' e eq_refl)|]. injection E as -> ->.
    rewrite (pupon_ok _ _ _ _ _ Hf). cbv beta iota. rewrite (pupon_ok ploc _ s2 _ _ eq_refl). rewrite Hat, loc_eqb_refl. cbn. unfold pnothing. lia.
  - destruct Hf as (er & _ & Hf). rewrite (pupon_ok _ _ _ _ _ Hf). unfold pnothing. lia.
  - rewrite (pupon_halt _ _ _ h); [lia|]. exact Hf.
Qed.
Lemma ctimes_more : forall min max j b s s' e k k2 o, (j < max)%N -> (max = max_count -> p_at s' <> p_at s) -> comp b s (Match s' e) ->
  ccomp b s (Match s' e) k -> ccomp (NTimes min max (j + 1) b) s' o k2 -> forall o', ccomp (NTimes min max j b) s o' (k + k2).
Proof.
  intros min max j b s s' e k k2 o Hj Hat Hc Hk Hm o' sub temp Hb. destruct (comp_sub _ _ _ _ _ _ temp Hc Hb) as (f0 & Hf).
  destruct (ccomp_sub _ _ _ _ _ temp Hk Hb) as (f1 & Hf1). destruct (Hm sub (temp ++ e) Hb) as (f2 & Hf2).
  exists (S (f0 + f1 + f2)). intros f [|fl] Hle Hfl; [lia|].
  cbn [prep_steps]. replace (N.ltb j max) with true by (symmetry; apply N.ltb_lt; assumption).
  rewrite (pupon_ok pget _ s _ _ eq_refl). unfold pboth. rewrite Hf1 by lia. specialize (Hf f ltac:(lia)). cbn [answers] in Hf.
  rewrite (pupon_ok _ _ _ _ _ Hf). cbv beta iota. rewrite (pupon_ok ploc _ s' _ _ eq_refl).
  assert (El : ((max =? u32_max)%N && loc_eqb (p_at s') (p_at s))%bool = false).
  { destruct (N.eqb_spec max u32_max) as [E|]; [|reflexivity]. apply Hat in E. destruct (loc_eqb (p_at s') (p_at s)) eqn:E2; [|reflexivity]. apply loc_eqb_eq in E2. contradiction. }
  rewrite El. rewrite Hf2 by lia. reflexivity.
Qed.
(** The definitions of a choice. *)
Lemma calts_end : forall d ds s o k, comp (NSeq d) s o -> ccomp (NSeq d) s o k -> (forall x s' e, o <> No x s' e) ->
  forall o', ccomp (NAlts (d :: ds)) s o' k.
Proof.
  intros d ds s o k Hc Hk Ho o' subs H. inversion H as [|? ? i is Hi His]; subst. destruct (comp_sub _ _ _ _ _ _ [] Hc Hi) as (f0 & Hf).
  destruct (ccomp_sub _ _ _ _ _ [] Hk Hi) as (f1 & Hf1). exists (f0 + f1). intros f Hle. specialize (Hf f ltac:(lia)).
  cbn [por_steps]. rewrite (pupon_ok pget _ s _ _ eq_refl). unfold pboth. rewrite Hf1 by lia.
  destruct o as [s' e|l' s' e|h]; cbn [answers] in Hf.
  - rewrite (pupon_ok _ _ _ _ _ Hf). unfold pnothing. lia.
  - contradiction (Ho l' s' e eq_refl).
  - rewrite (pupon_halt _ _ _ h); [lia|]. exact Hf.
Qed.
Lemma calts_next : forall d ds s x s' e k k2 o2, comp (NSeq d) s (No x s' e) -> ccomp (NSeq d) s (No x s' e) k -> ccomp (NAlts ds) s o2 k2 ->
  forall o', ccomp (NAlts (d :: ds)) s o' (k + k2).
Proof.
  intros d ds s x s' e k k2 o2 Hc Hk Hm o' subs H. inversion H as [|? ? i is Hi His]; subst. destruct (comp_sub _ _ _ _ _ _ [] Hc Hi) as (f0 & Hf).
  destruct (ccomp_sub _ _ _ _ _ [] Hk Hi) as (f1 & Hf1). destruct (Hm is His) as (f2 & Hf2). exists (f0 + f1 + f2). intros f Hle. specialize (Hf f ltac:(lia)).
  cbn [por_steps]. rewrite (pupon_ok pget _ s _ _ eq_refl). unfold pboth. rewrite Hf1 by lia. cbn [answers] in Hf. destruct Hf as (er & _ & Hf).
  rewrite (pupon_ok _ _ _ _ _ Hf). cbv beta iota. rewrite (pupon_ok (pput s) _ s' tt s eq_refl). rewrite Hf2 by lia. reflexivity.
Qed.
Lemma calts_nil : forall s o', ccomp (NAlts []) s o' 0.
Proof. intros s o' subs H. inversion H; subst. exists 0. intros f _. reflexivity. Qed.
Lemma cdefs : forall d1 d2 ds s o o' k, comp (NAlts (d1 :: d2 :: ds)) s o -> ccomp (NAlts (d1 :: d2 :: ds)) s o k ->
  match o with Match s' e => o' = Match s' e | No _ _ _ => exists x' s2 e2, o' = No x' s2 e2 | Halt h => o' = Halt h end ->
  ccomp (NDefs (d1 :: d2 :: ds)) s o' (1 + k).
Proof.
  intros d1 d2 ds s o o' k H Hk Ho i next evs Hc _. inversion Hc; subst. at_hyp Hi. cbn [exit].
  destruct (H subs ltac:(assumption)) as (f0 & Hf). destruct (Hk subs ltac:(assumption)) as (f1 & Hf1).
  assert (E : forall f, f0 + f1 <= f -> cnt (S f) (Some i) evs s = 1 + k + match o with Match s' e => cnt f None (evs ++ e) s' | _ => 0 end).
  { intros f Hle. rewrite (cnt_at _ _ _ _ _ _ _ _ Hi). cbv beta zeta iota. unfold pboth. rewrite Hf1 by lia. specialize (Hf f ltac:(lia)).
    destruct o as [s' e|l' s' e|h]; cbn [or_answers] in Hf.
    - rewrite (pupon_ok _ _ _ _ _ Hf). reflexivity.
    - destruct Hf as (_ & _ & es & er & _ & _ & Hf). rewrite (pupon_ok _ _ _ _ _ Hf). unfold pnothing. lia.
    - rewrite (pupon_halt _ _ _ h); [lia|]. exact Hf. }
  destruct o as [s' e|l' s' e|h].
  - subst o'. apply cstep. exists (f0 + f1). exact E.
  - destruct Ho as (x' & s2 & e2 & ->). apply cend. exists (f0 + f1). intros f Hle. rewrite E by exact Hle. lia.
  - subst o'. apply cend. exists (f0 + f1). intros f Hle. rewrite E by exact Hle. lia.
Qed.
Lemma cleaf_special : forall l c s r o i next evs, scanned (cfg l c) l s r ->
  match r with SMatch s' e => o = Match s' e | SUnmatch => exists x s2 e2, o = No x s2 e2 | SFail e => o = Halt (Failed e)
    | SForward id _ => (exists h, o = Halt h) /\ ~ defined rules id /\ forall r, In r rules -> ~ dollar id r end ->
  at_ i next (StSpecial (cfg l c)) l (scanner_symbol (cfg l c)) -> cconcl i next evs s o 1.
Proof.
  intros l c s r o i next evs Hsc Ho Hi.
  assert (E : forall f, S (length (p_rest s)) <= f -> cnt (S f) (Some i) evs s = 1 + match r with SMatch s' e => cnt f next (evs ++ e) s' | _ => 0 end).
  { intros f Hle. rewrite (cnt_at _ _ _ _ _ _ _ _ Hi). cbv beta zeta iota. unfold pspecial_step, pspecial_steps. cbn [i_def i_symbol].
    pose proof (scan_known f _ _ _ _ Hsc ltac:(lia)) as Hs. destruct (pspecial_scan None f (cfg l c) l s) as (x & s1) eqn:Es. unfold pboth.
    destruct r as [s2 e2| |id s2|er]; destruct x as [[evts| |id'']|er'|pn|]; cbn in Hs; try discriminate; try contradiction.
    - injection Hs as <- <-. rewrite (pupon_ok _ _ _ _ _ Es). unfold pnothing at 1.
      erewrite pupon_ok. 2:{ rewrite (pbind_ok pget _ s _ _ eq_refl). rewrite (pbind_ok _ _ _ _ _ Es). reflexivity. } reflexivity.
    - rewrite (pupon_ok _ _ _ _ _ Es). unfold pnothing at 1. pose proof (pexpected_at g i s _ _ _ _ Hi) as He.
      erewrite pupon_ok. 2:{ rewrite (pbind_ok pget _ s _ _ eq_refl). rewrite (pbind_ok _ _ _ _ _ Es).
        rewrite (pbind_ok (pput s) _ s1 tt s eq_refl). rewrite (pbind_ok _ _ _ _ _ He). reflexivity. } reflexivity.
    - injection Hs as <- <-. destruct Ho as (_ & Hd & Hn). destruct (Hg id) as (_ & _ & _ & HD). pose proof (HD Hd Hn) as Hla.
      rewrite (pupon_ok _ _ _ _ _ Es). cbv beta iota. rewrite Hla. unfold pnothing at 1.
      rewrite (pupon_halt _ _ _ (Failed (Error_ (p_at s) (MNoSuchForward id (scanner_symbol (cfg l c)) l)))); [reflexivity|].
      eexists. rewrite (pbind_ok pget _ s _ _ eq_refl). rewrite (pbind_ok _ _ _ _ _ Es). cbv beta iota. rewrite Hla.
      rewrite (pbind_ok (pput s) _ s2 tt s eq_refl). rewrite (pbind_ok ploc _ s _ _ eq_refl). reflexivity.
    - rewrite (pupon_halt _ _ _ (Failed er')) by (exists s1; exact Es).
      rewrite (pupon_halt _ _ _ (Failed er')); [reflexivity|]. exists s1. rewrite (pbind_ok pget _ s _ _ eq_refl). apply pbind_err. exact Es. }
  destruct r as [s2 e2| |id s2|er].
  - subst o. apply cstep. exists (S (length (p_rest s))). exact E.
  - destruct Ho as (x & s2 & e2 & ->). apply cend. exists (S (length (p_rest s))). exact E.
  - destruct Ho as ((h & ->) & _). apply cend. exists (S (length (p_rest s))). exact E.
  - subst o. apply cend. exists (S (length (p_rest s))). exact E.
Qed.
Lemma cleaf_terminal : forall l w s o i next sym evs, ev (NPrim (PTerminal l w)) s o -> at_ i next (StTerminal w) l sym -> cconcl i next evs s o 1.
Proof.
  intros l w s o i next sym evs He Hi.
  assert (E : forall f, cnt (S f) (Some i) evs s = 1 + match o with Match s' e => cnt f next (evs ++ e) s' | _ => 0 end).
  { intros f. rewrite (cnt_at _ _ _ _ _ _ _ _ Hi). cbv beta zeta iota. unfold pterminal_step.
    inversion He as [? ? ? s' Hgo|? ? ? Hno | | | | | | | | | | | | | | | | | | | | | | | | | | | | | | | | | | | | | | | | | | | | | | | | | | | ]; subst.
    - destruct (pprefix_none w s) as [(s2 & A & B)|(A & B)]; [|destruct (A _ Hgo)].
      erewrite pupon_ok. 2:{ rewrite (pbind_ok _ _ _ _ _ B). rewrite (pbind_ok ploc _ s _ _ eq_refl). rewrite (pbind_ok (pskip _) _ s tt _ eq_refl). reflexivity. }
      cbn [i_def]. rewrite (goes_move _ _ _ Hgo). reflexivity.
    - destruct (pprefix_none w s) as [(s2 & A & B)|(A & B)]; [destruct (Hno _ A)|].
      pose proof (pexpected_at g i s _ _ _ _ Hi) as Hx.
      erewrite pupon_ok. 2:{ rewrite (pbind_ok _ _ _ _ _ B). rewrite (pbind_ok _ _ _ _ _ Hx). reflexivity. } reflexivity. }
  destruct o as [s' e|x s' e|h].
  - apply cstep. exists 0. intros f _. apply E.
  - apply cend. exists 0. intros f _. rewrite E. reflexivity.
  - apply cend. exists 0. intros f _. rewrite E. reflexivity.
Qed.
(** All of it. *)
Lemma work_run : forall n s o, ev n s o -> exists k, work n s k /\ ccomp n s o k.
Proof.
  intros n s o H.
  pose proof (fun n s o => complete_run rules cfg g Hg n s o) as Cr.
  induction H;
    repeat match goal with K : @ex nat _ |- _ => let k := fresh "k" in let W := fresh "W" in let C := fresh "C" in destruct K as (k & W & C) end.
  - (* terminal *) exists 1. split; [apply wk_terminal|]. intros i next evs Hc _. inversion Hc; subst. at_hyp Hi. cbn [exit]. eapply cleaf_terminal; [apply ev_terminal; exact H|exact Hi].
  - exists 1. split; [apply wk_terminal|]. intros i next evs Hc _. inversion Hc; subst. at_hyp Hi. cbn [exit]. eapply cleaf_terminal; [apply ev_terminal_no; exact H|exact Hi].
  - (* empty *) exists 1. split; [apply wk_empty|]. intros i next evs Hc _. inversion Hc; subst. at_hyp Hi. cbn [exit].
    apply cstep. exists 0. intros f _. rewrite (cnt_at _ _ _ _ _ _ _ _ Hi). cbv beta zeta iota. rewrite app_nil_r. reflexivity.
  - (* special *) exists 1. split; [eapply wk_special; [exact H|apply not_forwarded; discriminate]|]. intros i next evs0 Hc _.
    inversion Hc as [| |? ? ? ? Hi| | | | | | | | | | | | |]; subst. cbn [exit]. eapply cleaf_special; [exact H|cbn; eauto|exact Hi].
  - exists 1. split; [eapply wk_special; [exact H|apply not_forwarded; discriminate]|]. intros i next evs0 Hc _.
    inversion Hc as [| |? ? ? ? Hi| | | | | | | | | | | | |]; subst. cbn [exit]. eapply cleaf_special; [exact H|cbn; eauto|exact Hi].
  - exists 1. split; [eapply wk_special; [exact H|apply not_forwarded; discriminate]|]. intros i next evs0 Hc _.
    inversion Hc as [| |? ? ? ? Hi| | | | | | | | | | | | |]; subst. cbn [exit]. eapply cleaf_special; [exact H|cbn; eauto|exact Hi].
  - (* forward *) exists (1 + k). split; [eapply wk_forward; eassumption|]. intros i next evs0 Hc _. inversion Hc as [| |? ? ? ? Hi| | | | | | | | | | | | |]; subst. cbn [exit].
    exact (cforward _ _ _ _ _ _ _ _ _ H (Cr _ _ _ H0) C (label_fwd _ _ _ Hg _ _ _ H0) Hi evs0).
  - exists (1 + k). split; [eapply wk_forward; eassumption|]. intros i next evs0 Hc _. inversion Hc as [| |? ? ? ? Hi| | | | | | | | | | | | |]; subst. cbn [exit].
    exact (cforward _ _ _ _ _ _ _ _ _ H (Cr _ _ _ H0) C (label_fwd _ _ _ Hg _ _ _ H0) Hi evs0).
  - exists (1 + k). split; [eapply wk_forward; eassumption|]. intros i next evs0 Hc _. inversion Hc as [| |? ? ? ? Hi| | | | | | | | | | | | |]; subst. cbn [exit].
    exact (cforward _ _ _ _ _ _ _ _ _ H (Cr _ _ _ H0) C (label_fwd _ _ _ Hg _ _ _ H0) Hi evs0).
  - exists 1. split; [eapply wk_unknown; eassumption|]. intros i next evs0 Hc _.
    inversion Hc as [| |? ? ? ? Hi| | | | | | | | | | | | |]; subst. cbn [exit]. eapply cleaf_special; [exact H|cbn; eauto|exact Hi].
  - (* meta *) exists k. split; [apply wk_meta; exact W|]. intros i next evs Hc _. inversion Hc; subst. cbn [exit]. eapply C. eassumption.
  - exists (1 + k). split; [eapply wk_ref; eassumption|]. intros i next sym evs0 Hi. exact (cref _ _ _ _ _ _ _ _ _ H (Cr _ _ _ H0) C Hi evs0).
  - exists (1 + k). split; [eapply wk_ref; eassumption|]. intros i next sym evs0 Hi. exact (cref _ _ _ _ _ _ _ _ _ H (Cr _ _ _ H0) C Hi evs0).
  - exists (1 + k). split; [eapply wk_ref; eassumption|]. intros i next sym evs0 Hi. exact (cref _ _ _ _ _ _ _ _ _ H (Cr _ _ _ H0) C Hi evs0).
  - (* undefined *) exists 1. split; [apply wk_undefined; exact H|]. intros i next sym evs Hi. apply cend. exists 0. intros f _. rewrite (cnt_at _ _ _ _ _ _ _ _ Hi). cbv beta zeta iota.
    destruct (Hg id) as (_ & _ & HC & _). rewrite (HC H). destruct (g_label g id); reflexivity.
  - exists (1 + k). split; [apply wk_optional; exact W|]. intros i next evs Hc _. inversion Hc; subst. cbn [exit]. eapply crep; eauto.
  - exists (1 + k). split; [apply wk_repeated; exact W|]. intros i next evs Hc _. inversion Hc; subst. cbn [exit]. eapply crep; eauto.
  - exists k. split; [apply wk_grouped; exact W|]. intros i next evs Hc _. inversion Hc; subst. cbn [exit]. apply (C i None); auto. exact I.
  - (* times *) exists 0. split; [apply wk_times_end; exact H|]. intros sub temp Hc. exists 1. intros f [|fl] _ Hfl; [lia|]. cbn [prep_steps].
    replace (N.ltb i max) with false by (symmetry; apply N.ltb_ge; assumption). reflexivity.
  - exists k. split; [eapply wk_times_last; eauto|]. eapply ctimes_last; eauto.
  - exists k. split; [eapply wk_times_last; eauto|]. eapply ctimes_last; eauto.
  - exists k. split; [eapply wk_times_last; eauto 6|]. eapply ctimes_last; eauto 6.
  - exists k. split; [eapply wk_times_last; eauto|]. eapply ctimes_last; eauto.
  - eexists. split; [eapply wk_times_more; eauto|]. eapply ctimes_more; eauto.
  - eexists. split; [eapply wk_times_more; eauto|]. eapply ctimes_more; eauto.
  - eexists. split; [eapply wk_times_more; eauto|]. eapply ctimes_more; eauto.
  - (* factor *) exists k. split; [apply wk_factor_one; exact W|]. intros i next evs Hc _. inversion Hc; subst; [|congruence]. rewrite exit_factor. apply (C i next); auto. exact I.
  - exists (1 + k). split; [apply wk_factor_many; assumption|]. intros i next evs Hc _. inversion Hc; subst; [congruence|]. rewrite exit_many by assumption. eapply crep; eauto.
  - (* term *) exists k. split; [apply wk_term_plain; exact W|]. intros i next evs Hc _. inversion Hc; subst. rewrite exit_term. apply (C i next); auto. exact I.
  - exists (1 + k). split; [eapply wk_term_over; eauto|]. intros i next evs0 Hc _. inversion Hc; subst. rewrite exit_exc. at_hyp Hi.
    exact (cexcept_over f s _ k _ _ _ _ _ _ (Cr _ _ _ H) C Hi ltac:(eassumption) ltac:(auto) evs0).
  - exists (1 + k). split; [eapply wk_term_over; eauto|]. intros i next evs0 Hc _. inversion Hc; subst. rewrite exit_exc. at_hyp Hi.
    exact (cexcept_over f s _ k _ _ _ _ _ _ (Cr _ _ _ H) C Hi ltac:(eassumption) ltac:(auto) evs0).
  - eexists. split; [eapply wk_term_exc; eauto|]. intros i next evs0 Hc _. inversion Hc; subst. rewrite exit_exc. at_hyp Hi.
    match goal with K1 : ev (NFactor f) s _, K2 : ev (NFactor e) _ _ |- _ =>
      pose proof (cexcept _ _ _ _ _ _ _ _ _ _ _ _ _ _ _ (Cr _ _ _ K1) ltac:(eassumption) H0 (Cr _ _ _ K2) ltac:(eassumption) Hi ltac:(eassumption) ltac:(eassumption) evs0) as X end.
    cbv iota in X. rewrite H2 in X. exact X.
  - eexists. split; [eapply wk_term_exc; eauto|]. intros i next evs0 Hc _. inversion Hc; subst. rewrite exit_exc. at_hyp Hi.
    match goal with K1 : ev (NFactor f) s _, K2 : ev (NFactor e) _ _ |- _ =>
      pose proof (cexcept _ _ _ _ _ _ _ _ _ _ _ _ _ _ _ (Cr _ _ _ K1) ltac:(eassumption) H0 (Cr _ _ _ K2) ltac:(eassumption) Hi ltac:(eassumption) ltac:(eassumption) evs0) as X end.
    destruct H2 as [(s2 & e2 & -> & Hn)|(l2 & s2 & e2 & ->)].
    + destruct (p_rest s2); [contradiction|]. exact X.
    + exact X.
  - eexists. split; [eapply wk_term_exc; eauto|]. intros i next evs0 Hc _. inversion Hc; subst. rewrite exit_exc. at_hyp Hi.
    match goal with K1 : ev (NFactor f) s _, K2 : ev (NFactor e) _ _ |- _ =>
      pose proof (cexcept _ _ _ _ _ _ _ _ _ _ _ _ _ _ _ (Cr _ _ _ K1) ltac:(eassumption) H0 (Cr _ _ _ K2) ltac:(eassumption) Hi ltac:(eassumption) ltac:(eassumption) evs0) as X end.
    exact X.
  - (* sequences *) exists 0. split; [apply wk_seq_nil|]. intros i next evs Hc _. inversion Hc.
  - exists k. split; [eapply wk_seq_group; eassumption|]. intros i next evs Hc He. cbn in He. subst next. cbn [exit].
    assert (K : code (NDefs d) i None).
    { assert (K : exists next, code (NTerm t) i next) by (inversion Hc; subst; eauto). destruct K as (nx & K).
      destruct t as [[n p] [e|]]; [destruct p; discriminate|]. destruct p; cbn in H; try discriminate. destruct (N.eqb_spec n 1) as [->|]; [|discriminate]. injection H as ->.
      inversion K; subst. match goal with Z : CodeFacts.code _ _ (NFactor _) _ _ |- _ => inversion Z; subst; [|congruence] end.
      match goal with Z : CodeFacts.code _ _ (NPrim _) _ _ |- _ => inversion Z; subst end. assumption. }
    exact (C i None evs K I).
  - eexists. split; [eapply wk_seq; eassumption|]. intros i next evs0 Hc He. cbn in He. subst next. cbn [exit].
    match goal with K1 : ccomp (NTerm t) s _ ?a, K2 : ccomp (NSeq ts) s' _ ?b |- _ => rename a into ka, b into kb, K1 into C1, K2 into C2 end.
    assert (K : forall j next, code (NTerm t) j next -> cconcl j next evs0 s (Match s' evs) ka).
    { intros j nx Hj. pose proof (C1 j nx evs0 Hj I) as X. cbn [exit] in X. rewrite H in X. exact X. }
    inversion Hc as [| | | | | | | | | | |? ? ? Ht|? ? ? ? j ? Ht Hts| | |]; subst.
    + assert (kb = 0) as -> by (match goal with W : work (NSeq []) _ kb |- _ => inversion W; reflexivity end).
      match goal with K1 : ev (NSeq []) _ _ |- _ => inversion K1; subst end. cbn [before]. rewrite app_nil_r, Nat.add_0_r. exact (K _ _ Ht).
    + specialize (K _ _ Ht). pose proof (C2 j None (evs0 ++ evs) Hts eq_refl) as X. destruct o as [s2 e2|l2 s2 e2|h]; cbn [before cconcl exit] in *.
      * intros x Hx. rewrite <- Nat.add_assoc. apply K. apply X. rewrite <- app_assoc. exact Hx.
      * apply K. exact X.
      * apply K. exact X.
  - exists k. split; [eapply wk_seq_over; eauto|]. intros i next evs0 Hc He. cbn in He. subst next. cbn [exit].
    assert (K : exists nx, code (NTerm t) i nx) by (inversion Hc; subst; eauto). destruct K as (nx & K). exact (C i nx evs0 K I).
  - exists k. split; [eapply wk_seq_over; eauto|]. intros i next evs0 Hc He. cbn in He. subst next. cbn [exit].
    assert (K : exists nx, code (NTerm t) i nx) by (inversion Hc; subst; eauto). destruct K as (nx & K). exact (C i nx evs0 K I).
  - exists k. split; [apply wk_defs_one; exact W|]. intros i next evs Hc He. inversion Hc; subst. exact (C i None evs ltac:(assumption) eq_refl).
  - exists 1. split; [apply wk_defs_none|]. intros i next evs Hc _. inversion Hc; subst. at_hyp Hi. apply cend. exists 0. intros f _.
    rewrite (cnt_at _ _ _ _ _ _ _ _ Hi). reflexivity.
  - (* definitions *) exists (1 + k). split; [apply wk_defs; exact W|]. exact (cdefs _ _ _ _ _ _ _ (Cr _ _ _ H) C ltac:(cbn; eauto)).
  - exists (1 + k). split; [apply wk_defs; exact W|]. exact (cdefs _ _ _ _ _ _ _ (Cr _ _ _ H) C ltac:(cbn; eauto)).
  - exists (1 + k). split; [apply wk_defs; exact W|]. exact (cdefs _ _ _ _ _ _ _ (Cr _ _ _ H) C ltac:(cbn; eauto)).
  - exists (1 + k). split; [apply wk_defs; exact W|]. exact (cdefs _ _ _ _ _ _ _ (Cr _ _ _ H) C ltac:(cbn; eauto)).
  - exists k. split; [eapply wk_alts_end; eauto; discriminate|]. eapply calts_end; eauto. discriminate.
  - exists k. split; [eapply wk_alts_end; eauto; discriminate|]. eapply calts_end; eauto. discriminate.
  - exists (k + 0). split; [eapply wk_alts_next; eauto; apply wk_alts_nil|]. eapply calts_next; eauto. exact (calts_nil s (Match s [])).
  - eexists. split; [eapply wk_alts_next; eauto|]. eapply calts_next; eauto.
  - eexists. split; [eapply wk_alts_next; eauto|]. eapply calts_next; eauto.
  - eexists. split; [eapply wk_alts_next; eauto|]. eapply calts_next; eauto.
  - (* forwarding *) exists k. split; [eapply wk_fwd; eassumption|]. intros a evs Hla. destruct (Hg id) as (HA & _). destruct (HA r H) as (a' & Hla' & Hca & _). assert (a' = a) by congruence. subst a'.
    exact (ccomp_sub _ _ _ _ _ evs C Hca).
  - exists k. split; [eapply wk_fwd_alias; eassumption|]. intros a evs Hla. destruct (Hg id) as (_ & HB & _). destruct (HB r H H0) as (a' & Hla' & Hca). assert (a' = a) by congruence. subst a'.
    apply (cconcl_none _ _ _ o). exact (C a None _ evs Hca).
Qed.
End Work.
