(** The machine against the big-step semantics: soundness. *)
From Coq Require Import String List NArith Arith Bool Lia.
From Verif Require Import Base Ident Tokenizer Ast Lex Syntax Io Graph Machine SpecText SpecSyntax TextFacts SyntaxFacts SpecParse Pure PureFacts ParseFacts CodeFacts.
Import ListNotations.
Open Scope nat_scope.

Lemma defined_dec : forall rs id, {r | names rs id r} + {~ defined rs id}.
Proof.
  intros rs id. destruct (find (fun r => str_eqb (keyed id) (keyed (r_id r))) rs) as [r|] eqn:E.
  - left. exists r. apply find_some in E as (Hin & E). apply str_eqb_eq in E. split; [exact Hin|]. apply same_name_keyed. exact E.
  - right. intros (r & Hin & Hs). apply same_name_keyed in Hs. eapply find_none in E; [|exact Hin]. apply str_eqb_neq in E. contradiction.
Qed.
Lemma dollar_dec : forall rs id, {r | In r rs /\ dollar id r} + {forall r, In r rs -> ~ dollar id r}.
Proof.
  intros rs id. destruct (find (fun r => str_eqb (keyed id) (keyed (36%N :: r_id r))) rs) as [r|] eqn:E.
  - left. exists r. apply find_some in E as (Hin & E). apply str_eqb_eq in E. split; [exact Hin|]. apply same_name_keyed. exact E.
  - right. intros r Hin Hs. apply same_name_keyed in Hs. eapply find_none in E; [|exact Hin]. apply str_eqb_neq in E. contradiction.
Qed.

(** What a subroutine gives for an outcome, starting with events [evs]. *)
Definition answers (x : res (prospect * list event) * pst) (evs : list event) (o : outcome) : Prop :=
  match o with
  | Match s' e => x = (Ok (Proceed, evs ++ e), s')
  | No l s' e => exists er, er = l /\ x = (Ok (NotThisWay er, evs ++ e), s')
  | Halt (Failed er) => exists s', x = (Err er, s')
  | Halt Crashed => exists p s', x = (Panic p, s')
  end.
Definition rep_answers (x : res (error + list event) * pst) (evs : list event) (o : outcome) : Prop :=
  match o with
  | Match s' e => x = (Ok (inr (evs ++ e)), s')
  | No l s' e => e = [] /\ exists er, er = l /\ x = (Ok (inl er), s')
  | Halt (Failed er) => exists s', x = (Err er, s')
  | Halt Crashed => exists p s', x = (Panic p, s')
  end.
Definition or_answers (x : res (list error + list event) * pst) (s : pst) (o : outcome) : Prop :=
  match o with
  | Match s' e => x = (Ok (inr e), s')
  | No l s' e => e = [] /\ s' = s /\ exists es er, pick_error (rev es) = Some er /\ er = l /\ x = (Ok (inl es), s')
  | Halt (Failed er) => exists s', x = (Err er, s')
  | Halt Crashed => exists p s', x = (Panic p, s')
  end.
Lemma pbind_cong : forall {A B} (m m' : P A) (f : A -> P B) r r', m r = m' r' -> pbind m f r = pbind m' f r'.
Proof. intros A B m m' f r r' H. unfold pbind. rewrite H. reflexivity. Qed.
Lemma u32_max_count : u32_max = max_count. Proof. reflexivity. Qed.

Section Run.
Variable rules : list rule.
Variable cfg : config.
Variable g : graph.
Hypothesis Hg : faithful cfg rules g.
Notation ev := (ev rules cfg).
Notation code := (code cfg (g_instrs g)).
Notation at_ := (at_ (g_instrs g)).
Notation run f := (prun g f None).

(** Where the machine goes on after a node. *)
Definition exit (n : node) (next : option nat) : option nat :=
  match n with
  | NPrim (PGrouped _ _) => None
  | NFactor (Factor k (PGrouped _ _)) => if N.eqb k 1 then None else next
  | NTerm t => match bare_group t with Some _ => None | None => next end
  | _ => next
  end.
Definition ends (n : node) (next : option nat) : Prop := match n with NSeq _ => next = None | _ => True end.

Definition heard (x : res (prospect * list event) * pst) f (n : node) next evs s : Prop :=
  exists o, ev n s o /\
    match o with
    | Match s' e => exists f', f' < f /\ x = run f' (exit n next) (evs ++ e) s'
    | _ => answers x evs o
    end.
Lemma heard_none : forall x f n next evs s, heard x f n next evs s -> exit n next = None -> fst x <> OutOfFuel ->
  exists o, ev n s o /\ answers x evs o.
Proof.
  intros x f n next evs s (o & Ho & H) He Hx. exists o. split; [exact Ho|]. destruct o as [s' e|l s' e|h]; auto.
  destruct H as (f' & _ & H). rewrite He in H. destruct f'; [rewrite H in Hx; contradiction|]. exact H.
Qed.
Lemma exit_none : forall n, exit n None = None.
Proof.
  intros [d|d|ts|t|[k p]|p|a b c d|l id|id]; cbn; auto.
  - destruct (bare_group t); reflexivity.
  - destruct p; auto. destruct (N.eqb k 1); reflexivity.
  - destruct p; auto.
Qed.

(** Repetitions. *)
Lemma rep_sound : forall (sub : list event -> P (prospect * list event)) b,
  (forall temp s, fst (sub temp s) <> OutOfFuel -> exists o, ev b s o /\ answers (sub temp s) temp o) ->
  forall f mn mx i temp s, fst (prep_loop sub f mn mx i temp s) <> OutOfFuel ->
  exists o, ev (NTimes mn mx i b) s o /\ rep_answers (prep_loop sub f mn mx i temp s) temp o.
Proof.
  intros sub b Hsub. induction f as [|f IH]; intros mn mx i temp s H; [contradiction|].
  cbn [prep_loop] in *. destruct (N.ltb_spec i mx) as [Hi|Hi].
  2:{ exists (Match s []). split; [apply ev_times_end; exact Hi|]. cbn. rewrite app_nil_r. reflexivity. }
  rewrite (pbind_ok pget _ s _ _ eq_refl) in *.
  destruct (sub temp s) as (x & s1) eqn:Esub. specialize (Hsub temp s). rewrite Esub in Hsub. cbn [fst] in Hsub.
  destruct x as [(p & t1)|er|pn|].
  4:{ rewrite (pbind_fuel _ _ _ _ Esub) in H. contradiction. }
  2:{ destruct Hsub as (o & Ho & Ha); [discriminate|]. rewrite (pbind_err _ _ _ _ _ Esub).
      destruct o as [s' e|l s' e|[e|]]; cbn in Ha; try discriminate; try (destruct Ha as (? & _ & ?); discriminate); try (destruct Ha as (? & ? & ?); discriminate).
      destruct Ha as (s' & Ha). injection Ha as -> ->. exists (Halt (Failed e)). split; [eapply ev_times_halt; eauto|]. cbn. eauto. }
  2:{ destruct Hsub as (o & Ho & Ha); [discriminate|]. rewrite (pbind_panic _ _ _ _ _ Esub).
      destruct o as [s' e|l s' e|[e|]]; cbn in Ha; try discriminate; try (destruct Ha as (? & _ & ?); discriminate); try (destruct Ha as (? & ?); discriminate).
      exists (Halt Crashed). split; [eapply ev_times_halt; eauto|]. cbn. eauto. }
  rewrite (pbind_ok _ _ _ _ _ Esub) in *. destruct Hsub as (o & Ho & Ha); [discriminate|].
  destruct o as [s' e|l s' e|[e|]]; cbn in Ha; try (destruct Ha as (? & ?); discriminate); try (destruct Ha as (? & ? & ?); discriminate).
  - injection Ha as -> -> ->. rewrite (pbind_ok ploc _ s' _ _ eq_refl) in *.
    destruct ((mx =? u32_max)%N && loc_eqb (p_at s') (p_at s))%bool eqn:El.
    + apply andb_true_iff in El as (E1 & E2). apply N.eqb_eq in E1. apply loc_eqb_eq in E2.
      exists (Halt (Failed (Error_ (p_at s) MLivelock))). split; [eapply ev_times_livelock; eauto|]. cbn. eexists. reflexivity.
    + assert (Hm : mx = max_count -> p_at s' <> p_at s).
      { intros E1 E2. rewrite E1, u32_max_count, N.eqb_refl, E2, loc_eqb_refl in El. discriminate. }
      destruct (IH _ _ _ _ _ H) as (o2 & Ho2 & Ha2). destruct o2 as [s2 e2|l2 s2 e2|h]; cbn in Ha2.
      * exists (Match s2 (e ++ e2)). split; [eapply ev_times_more; eauto|]. cbn. rewrite app_assoc. exact Ha2.
      * destruct Ha2 as (-> & Ha2). exists (No l2 s2 []). split; [eapply ev_times_no; eauto|]. cbn. auto.
      * exists (Halt h). split; [eapply ev_times_more_halt; eauto|]. exact Ha2.
  - destruct Ha as (er & Hl & Ha). injection Ha as -> -> ->. destruct (N.ltb_spec i mn) as [Hm|Hm].
    + exists (No l s' []). split; [eapply ev_times_short; eauto|]. cbn. split; [reflexivity|]. exists er. auto.
    + rewrite (pbind_ok (pput s) _ s' tt s eq_refl). exists (Match s e). split; [eapply ev_times_stop; eauto|]. reflexivity.
Qed.
Lemma pick_last : forall es er e, pick_error (rev es) = Some er -> pick_error (rev (e :: es)) = Some (if loc_ltb (e_loc er) (e_loc e) then e else er).
Proof.
  intros es er e H. cbn. destruct (rev es) as [|a r]; [discriminate|]. cbn in *. injection H as H.
  rewrite fold_left_app. cbn. rewrite H. reflexivity.
Qed.
Lemma or_sound : forall (sub : nat -> P (prospect * list event)) ds subs, codes cfg (g_instrs g) ds subs ->
  (forall d i s, code (NSeq d) i None -> fst (sub i s) <> OutOfFuel -> exists o, ev (NSeq d) s o /\ answers (sub i s) [] o) ->
  ds <> [] -> forall s, fst (por_loop sub subs s) <> OutOfFuel ->
  exists o, ev (NAlts ds) s o /\ or_answers (por_loop sub subs s) s o.
Proof.
  intros sub ds subs HC Hsub. induction HC as [|d ds i is Hc HC IH]; intros Hd s H; [contradiction|]. clear Hd.
  cbn [por_loop] in *. rewrite (pbind_ok pget _ s _ _ eq_refl) in *.
  specialize (Hsub d i s Hc). destruct (sub i s) as (x & s1) eqn:Esub. cbn [fst] in Hsub.
  destruct x as [(p & t1)|er|pn|].
  4:{ rewrite (pbind_fuel _ _ _ _ Esub) in H. contradiction. }
  2:{ destruct Hsub as (o & Ho & Ha); [discriminate|]. rewrite (pbind_err _ _ _ _ _ Esub).
      destruct o as [s' e|l s' e|[e|]]; cbn in Ha; try discriminate; try (destruct Ha as (? & _ & ?); discriminate); try (destruct Ha as (? & ? & ?); discriminate).
      destruct Ha as (s' & Ha). injection Ha as -> ->. exists (Halt (Failed e)). split; [eapply ev_alts_halt; eauto|]. cbn. eauto. }
  2:{ destruct Hsub as (o & Ho & Ha); [discriminate|]. rewrite (pbind_panic _ _ _ _ _ Esub).
      destruct o as [s' e|l s' e|[e|]]; cbn in Ha; try discriminate; try (destruct Ha as (? & _ & ?); discriminate); try (destruct Ha as (? & ?); discriminate).
      exists (Halt Crashed). split; [eapply ev_alts_halt; eauto|]. cbn. eauto. }
  rewrite (pbind_ok _ _ _ _ _ Esub) in *. destruct Hsub as (o & Ho & Ha); [discriminate|].
  destruct o as [s' e|l s' e|[e|]]; cbn in Ha; try (destruct Ha as (? & ?); discriminate); try (destruct Ha as (? & ? & ?); discriminate).
  - injection Ha as -> -> ->. exists (Match s' e). split; [apply ev_alts_first; exact Ho|]. reflexivity.
  - destruct Ha as (er & -> & Ha). injection Ha as -> -> ->. rewrite (pbind_ok (pput s) _ s' tt s eq_refl) in *.
    destruct ds as [|d2 ds].
    + inversion HC; subst. exists (No l s []). split; [eapply ev_alts_last; eauto|]. cbn. split; [reflexivity|]. split; [reflexivity|].
      exists [l], l. auto.
    + assert (H1 : fst (por_loop sub is s) <> OutOfFuel).
      { intros E. apply H. destruct (por_loop sub is s) as (x & s2) eqn:Eo. cbn in E. subst x. rewrite (pbind_fuel _ _ _ _ Eo). reflexivity. }
      destruct (IH ltac:(discriminate) s H1) as (o2 & Ho2 & Ha2). destruct o2 as [s2 e2|l2 s2 e2|[e2|]]; cbn in Ha2.
      * exists (Match s2 e2). split; [eapply ev_alts_next; eauto|]. rewrite (pbind_ok _ _ _ _ _ Ha2). reflexivity.
      * destruct Ha2 as (-> & -> & es & er2 & Hp & Hl2 & Ha2). subst l2. exists (No (further er2 l) s []). split; [eapply ev_alts_no; eauto|].
        cbn. split; [reflexivity|]. split; [reflexivity|]. eexists (l :: es), _. split; [apply pick_last; exact Hp|].
        split; [reflexivity|]. rewrite (pbind_ok _ _ _ _ _ Ha2). reflexivity.
      * destruct Ha2 as (s2 & Ha2). exists (Halt (Failed e2)). split; [eapply ev_alts_next_halt; eauto|]. cbn. exists s2. rewrite (pbind_err _ _ _ _ _ Ha2). reflexivity.
      * destruct Ha2 as (pn & s2 & Ha2). exists (Halt Crashed). split; [eapply ev_alts_next_halt; eauto|]. cbn. exists pn, s2. rewrite (pbind_panic _ _ _ _ _ Ha2). reflexivity.
Qed.

(** One step of the machine. *)
Lemma run_at : forall f i next st def evs s sym, nth_error (g_instrs g) i = Some (Instr next sym def st) ->
  prun g (S f) None (Some i) evs s =
  (let continue (pe : prospect * list event) :=
     let '(p, evs) := pe in match p with NotThisWay e => pret (NotThisWay e, evs) | Proceed => run f next evs end in
   match st with
   | StRepetition min max sub =>
       letp o := prep_loop (fun evs => run f (Some sub) evs) f min max 0%N [] in
       match o with inl e => pret (NotThisWay e, evs) | inr temp => run f next (evs ++ temp) end
   | StOr subs =>
       letp o := por_loop (fun a => run f (Some a) []) subs in
       match o with
       | inr temp => run f next (evs ++ temp)
       | inl es =>
           match pick_error (rev es) with
           | None => pcrash PUnwrap
           | Some err =>
               letp l := ploc in
               if loc_eqb (e_loc err) l then letp e := perr_expected None g (Some i) in pret (NotThisWay e, evs)
               else pret (NotThisWay err, evs)
           end
       end
   | StAlias id =>
       match g_label g id with
       | None => pcrash PUnwrap
       | Some address =>
           match g_canonical g id with
           | None => pcrash PUnwrap
           | Some name =>
               letp l := ploc in
               letp (p, temp) := run f (Some address) [EvBegin def l name] in
               match p with
               | NotThisWay e => pret (NotThisWay e, evs)
               | Proceed => letp l := ploc in run f next (evs ++ temp ++ [EvEnd def l name])
               end
           end
       end
   | StTerminal w => letp pe := pterminal_step g None i (Instr next sym def st) w evs in continue pe
   | StSpecial sc => letp pe := pspecial_step g (fun a evs => run f (Some a) evs) None f i (Instr next sym def st) sc evs in continue pe
   | StEmpty => continue (Proceed, evs)
   | StExcept fa ex => letp pe := pexcept_scan g (fun en a evs => prun g f en (Some a) evs) None f i fa ex evs in continue pe
   end) s.
Proof. intros f i next st def evs s sym H. cbn [prun]. rewrite H. reflexivity. Qed.

Definition sound_at (f : nat) : Prop := forall n i next evs s, code n i next -> ends n next ->
  fst (run f (Some i) evs s) <> OutOfFuel -> heard (run f (Some i) evs s) f n next evs s.
Lemma sound_sub : forall f, sound_at f -> forall n i evs s, code n i None -> fst (run f (Some i) evs s) <> OutOfFuel ->
  exists o, ev n s o /\ answers (run f (Some i) evs s) evs o.
Proof.
  intros f Hf n i evs s Hc Hx. assert (He : ends n None) by (destruct n; cbn; auto).
  exact (heard_none _ _ _ _ _ _ (Hf n i None evs s Hc He Hx) (exit_none n) Hx).
Qed.

(** References. *)
Lemma ref_sound : forall f id l i next sym evs s, sound_at f -> at_ i next (StAlias id) l sym ->
  fst (run (S f) (Some i) evs s) <> OutOfFuel ->
  exists o, ev (NRef l id) s o /\
    match o with Match s' e => run (S f) (Some i) evs s = run f next (evs ++ e) s' | _ => answers (run (S f) (Some i) evs s) evs o end.
Proof.
  intros f id l i next sym evs s IH Hi. rewrite (run_at _ _ _ _ _ _ _ _ Hi). cbv beta zeta iota. intros H. destruct (Hg id) as (HA & _ & HC & _).
  destruct (defined_dec rules id) as [(r & Hr)|Hu].
  2:{ exists (Halt Crashed). split; [apply ev_ref_undefined; exact Hu|]. cbn. rewrite (HC Hu). destruct (g_label g id); eexists _, _; reflexivity. }
  destruct (HA r Hr) as (a & Hla & Hca & Hcn). rewrite Hla, Hcn in *. rewrite (pbind_ok ploc _ s _ _ eq_refl) in *.
  pose proof (sound_sub _ IH _ _ [EvBegin l (p_at s) (r_id r)] s Hca) as Hs.
  destruct (run f (Some a) [EvBegin l (p_at s) (r_id r)] s) as (x & s1) eqn:Er. cbn [fst] in Hs.
  destruct x as [(p & t1)|er|pn|].
  - rewrite (pbind_ok _ _ _ _ _ Er) in *. destruct Hs as (o & Ho & Ha); [discriminate|].
    destruct o as [s' e|l' s' e|[e|]]; cbn in Ha; try (destruct Ha as (? & ?); discriminate); try (destruct Ha as (? & ? & ?); discriminate).
    + injection Ha as -> -> ->. rewrite (pbind_ok ploc _ s' _ _ eq_refl) in *. eexists. split; [eapply ev_ref; eauto|]. reflexivity.
    + destruct Ha as (er & Hl & Ha). injection Ha as -> -> ->. eexists. split; [eapply ev_ref_no; eauto|]. cbn. exists er. split; [exact Hl|]. rewrite app_nil_r. reflexivity.
  - rewrite (pbind_err _ _ _ _ _ Er) in *. destruct Hs as (o & Ho & Ha); [discriminate|].
    destruct o as [s' e|l' s' e|[e|]]; cbn in Ha; try discriminate; try (destruct Ha as (? & _ & ?); discriminate); try (destruct Ha as (? & ? & ?); discriminate).
    destruct Ha as (s' & Ha). injection Ha as -> ->. eexists. split; [eapply ev_ref_halt; eauto|]. cbn. eauto.
  - rewrite (pbind_panic _ _ _ _ _ Er) in *. destruct Hs as (o & Ho & Ha); [discriminate|].
    destruct o as [s' e|l' s' e|[e|]]; cbn in Ha; try discriminate; try (destruct Ha as (? & _ & ?); discriminate); try (destruct Ha as (? & ?); discriminate).
    eexists. split; [eapply ev_ref_halt; eauto|]. cbn. eauto.
  - rewrite (pbind_fuel _ _ _ _ Er) in H. contradiction.
Qed.

(** Targets of forwarding. *)
Lemma fwd_sound : forall f id a evs s, (forall f', f' <= f -> sound_at f') -> g_label g id = Some a ->
  fst (run f (Some a) evs s) <> OutOfFuel ->
  exists o, ev (NFwd id) s o /\ answers (run f (Some a) evs s) evs o.
Proof.
  intros f id a evs s IH Hl H. destruct (Hg id) as (HA & HB & _ & HD).
  destruct (defined_dec rules id) as [(r & Hr)|Hu].
  - destruct (HA r Hr) as (a' & Hla & Hca & _). assert (a' = a) by congruence. subst a'.
    destruct (sound_sub _ (IH f ltac:(lia)) _ _ evs s Hca H) as (o & Ho & Ha). exists o. split; [eapply ev_fwd; eauto|exact Ha].
  - destruct (dollar_dec rules id) as [(r & Hin & Hr)|Hn].
    + destruct (HB r Hin Hr) as (a' & Hla & Hca). assert (a' = a) by congruence. subst a'.
      destruct f as [|f]; [contradiction|].
      destruct (ref_sound f _ _ _ _ _ evs s (IH f ltac:(lia)) Hca H) as (o & Ho & Ha). exists o. split; [eapply ev_fwd_alias; eauto|].
      destruct o as [s' e|l' s' e|h]; auto. rewrite Ha in *. destruct f; [contradiction|]. reflexivity.
    + rewrite (HD Hu Hn) in Hl. discriminate.
Qed.

Lemma bare_group_ev : forall t d s o, bare_group t = Some d -> ev (NTerm t) s o -> ev (NDefs d) s o.
Proof.
  intros [[k p] [e|]] d s o Hb H; [destruct p; discriminate|]. destruct p; cbn in Hb; try discriminate.
  destruct (N.eqb_spec k 1) as [->|]; [|discriminate]. injection Hb as ->.
  inversion H; subst. match goal with K : ev (NFactor _) _ _ |- _ => inversion K; subst end; [|congruence].
  match goal with K : ev (NPrim _) _ _ |- _ => inversion K; subst end. assumption.
Qed.
Lemma sound_run : forall f, sound_at f.
Proof.
  intros f. induction f as [f IHf] using lt_wf_ind.
  enough (K : forall n i next, code n i next -> ends n next -> forall evs s, fst (run f (Some i) evs s) <> OutOfFuel -> heard (run f (Some i) evs s) f n next evs s).
  { intros n i next evs s Hc He. apply K; auto. }
  destruct f as [|f]; [intros; contradiction|].
  assert (IHle : forall f', f' <= f -> sound_at f') by (intros; apply IHf; lia).
  pose proof (IHle f (le_n f)) as IH0.
  intros n i next Hc. apply (code_mut cfg (g_instrs g) (fun n i next => ends n next -> forall evs s, fst (run (S f) (Some i) evs s) <> OutOfFuel -> heard (run (S f) (Some i) evs s) (S f) n next evs s) (fun _ _ => True)); auto; clear n i next Hc.
  - (* empty *) intros l i next Hi _ evs s. rewrite (run_at _ _ _ _ _ _ _ _ Hi). cbv beta zeta iota. intros H.
    exists (Match s []). split; [constructor|]. exists f. split; [lia|]. rewrite app_nil_r. reflexivity.
  - (* terminal *) intros l w i next Hi _ evs s. rewrite (run_at _ _ _ _ _ _ _ _ Hi). cbv beta zeta iota. intros H. unfold pterminal_step in *.
    destruct (pprefix_none w s) as [(s' & A & B)|(A & B)].
    + eexists. split; [apply ev_terminal; exact A|]. exists f. split; [lia|].
      erewrite pbind_ok. 2:{ rewrite (pbind_ok _ _ _ _ _ B). rewrite (pbind_ok ploc _ s _ _ eq_refl). rewrite (pbind_ok (pskip _) _ s tt _ eq_refl). reflexivity. }
      cbn [i_def]. rewrite (goes_move _ _ _ A). reflexivity.
    + eexists. split; [apply ev_terminal_no; exact A|]. pose proof (pexpected_at g i s _ _ _ _ Hi) as He. eexists. split; [reflexivity|].
      erewrite pbind_ok. 2:{ rewrite (pbind_ok _ _ _ _ _ B). rewrite (pbind_ok _ _ _ _ _ He). reflexivity. } rewrite app_nil_r. reflexivity.
  - (* special *) intros l c i next Hi _ evs s. rewrite (run_at _ _ _ _ _ _ _ _ Hi). cbv beta zeta iota. intros H. unfold pspecial_step in *. cbn [i_def i_symbol] in *.
    destruct (scan_none f (cfg l c) l s) as [(A & _)|(r & A & B)].
    { exfalso. apply H. destruct (pspecial_scan None f (cfg l c) l s) as (x & s1) eqn:Es. cbn in A. subst x.
      erewrite pbind_fuel; [reflexivity|]. rewrite (pbind_ok pget _ s _ _ eq_refl). rewrite (pbind_fuel _ _ _ _ Es). reflexivity. }
    destruct (pspecial_scan None f (cfg l c) l s) as (x & s1) eqn:Es. destruct x as [[evts| |id]|er|pn|]; cbn in B; try contradiction; subst r.
    + eexists. split; [apply ev_special; exact A|]. exists f. split; [lia|].
      erewrite pbind_ok. 2:{ rewrite (pbind_ok pget _ s _ _ eq_refl). rewrite (pbind_ok _ _ _ _ _ Es). reflexivity. } reflexivity.
    + eexists. split; [apply ev_special_no; exact A|]. pose proof (pexpected_at g i s _ _ _ _ Hi) as He. eexists. split; [reflexivity|].
      erewrite pbind_ok. 2:{ rewrite (pbind_ok pget _ s _ _ eq_refl). rewrite (pbind_ok _ _ _ _ _ Es).
        rewrite (pbind_ok (pput s) _ s1 tt s eq_refl). rewrite (pbind_ok _ _ _ _ _ He). reflexivity. } rewrite app_nil_r. reflexivity.
    + destruct (g_label g id) as [a|] eqn:Hla.
      * pose proof (fwd_sound f id a evs s1 IHle Hla) as Hs. destruct (run f (Some a) evs s1) as (x & s2) eqn:Er. cbn [fst] in Hs.
        destruct x as [(p & t1)|er|pn|].
        -- destruct Hs as (o & Ho & Ha); [discriminate|].
           destruct o as [s' e|l' s' e|[e|]]; cbn in Ha; try (destruct Ha as (? & ?); discriminate); try (destruct Ha as (? & ? & ?); discriminate).
           ++ injection Ha as -> -> ->. eexists. split; [eapply ev_forward; eauto|]. exists f. split; [lia|].
              erewrite pbind_ok. 2:{ rewrite (pbind_ok pget _ s _ _ eq_refl). rewrite (pbind_ok _ _ _ _ _ Es). rewrite Hla. rewrite (pbind_ok _ _ _ _ _ Er). reflexivity. } reflexivity.
           ++ destruct Ha as (er & Hl & Ha). injection Ha as -> -> ->. eexists. split; [eapply ev_forward_no; eauto|]. exists f. split; [lia|].
              erewrite pbind_ok. 2:{ rewrite (pbind_ok pget _ s _ _ eq_refl). rewrite (pbind_ok _ _ _ _ _ Es). rewrite Hla. rewrite (pbind_ok _ _ _ _ _ Er). reflexivity. } reflexivity.
        -- destruct Hs as (o & Ho & Ha); [discriminate|].
           destruct o as [s' e|l' s' e|[e|]]; cbn in Ha; try discriminate; try (destruct Ha as (? & _ & ?); discriminate); try (destruct Ha as (? & ? & ?); discriminate).
           destruct Ha as (s' & Ha). injection Ha as -> ->. eexists. split; [eapply ev_forward_halt; eauto|]. cbn. exists s'.
           erewrite pbind_err. 2:{ rewrite (pbind_ok pget _ s _ _ eq_refl). rewrite (pbind_ok _ _ _ _ _ Es). rewrite Hla. rewrite (pbind_err _ _ _ _ _ Er). reflexivity. } reflexivity.
        -- destruct Hs as (o & Ho & Ha); [discriminate|].
           destruct o as [s' e|l' s' e|[e|]]; cbn in Ha; try discriminate; try (destruct Ha as (? & _ & ?); discriminate); try (destruct Ha as (? & ?); discriminate).
           eexists. split; [eapply ev_forward_halt; eauto|]. cbn. exists pn, s2.
           erewrite pbind_panic. 2:{ rewrite (pbind_ok pget _ s _ _ eq_refl). rewrite (pbind_ok _ _ _ _ _ Es). rewrite Hla. rewrite (pbind_panic _ _ _ _ _ Er). reflexivity. } reflexivity.
        -- exfalso. apply H. erewrite pbind_fuel. 2:{ rewrite (pbind_ok pget _ s _ _ eq_refl). rewrite (pbind_ok _ _ _ _ _ Es). rewrite Hla. rewrite (pbind_fuel _ _ _ _ Er). reflexivity. } reflexivity.
      * eexists. split.
        { eapply ev_forward_unknown; [exact A| |].
          - intros (r & Hr). destruct (Hg id) as (HA & _). destruct (HA r Hr) as (? & Z & _). congruence.
          - intros r Hin Hd. destruct (Hg id) as (_ & HB & _). destruct (HB r Hin Hd) as (? & Z & _). congruence. }
        cbn. eexists. erewrite pbind_err. 2:{ rewrite (pbind_ok pget _ s _ _ eq_refl). rewrite (pbind_ok _ _ _ _ _ Es). rewrite Hla.
          rewrite (pbind_ok (pput s) _ s1 tt s eq_refl). rewrite (pbind_ok ploc _ s _ _ eq_refl). reflexivity. } reflexivity.
    + eexists. split; [eapply ev_special_fail; exact A|]. cbn. exists s1.
      erewrite pbind_err. 2:{ rewrite (pbind_ok pget _ s _ _ eq_refl). rewrite (pbind_err _ _ _ _ _ Es). reflexivity. } reflexivity.
  - (* meta *) intros l id i next Hi _ evs s H. destruct (ref_sound f _ _ _ _ _ evs s IH0 Hi H) as (o & Ho & Ha).
    exists o. split; [apply ev_meta; exact Ho|]. destruct o; auto. exists f. split; [lia|exact Ha].
  - (* optional *) intros l d i next sub Hi Hc _ _ evs s. rewrite (run_at _ _ _ _ _ _ _ _ Hi). cbv beta zeta iota. intros H.
    assert (H1 : fst (prep_loop (fun evs => run f (Some sub) evs) f 0 1 0%N [] s) <> OutOfFuel).
    { intros E. apply H. destruct (prep_loop _ _ _ _ _ _ _) as (x & s2) eqn:Eo in E |- *. cbn in E. subst x. rewrite (pbind_fuel _ _ _ _ Eo). reflexivity. }
    destruct (rep_sound (fun evs => run f (Some sub) evs) (NDefs d) (fun t s0 => sound_sub f IH0 _ _ t s0 Hc) _ _ _ _ _ _ H1) as (o & Ho & Ha).
    exists o. split; [apply ev_optional; exact Ho|]. destruct o as [s' e|l' s' e|[e|]]; cbn in Ha.
    + exists f. split; [lia|]. rewrite (pbind_ok _ _ _ _ _ Ha). reflexivity.
    + destruct Ha as (-> & er & Hl & Ha). exists er. split; [exact Hl|]. rewrite (pbind_ok _ _ _ _ _ Ha), app_nil_r. reflexivity.
    + destruct Ha as (s' & Ha). exists s'. rewrite (pbind_err _ _ _ _ _ Ha). reflexivity.
    + destruct Ha as (pn & s' & Ha). exists pn, s'. rewrite (pbind_panic _ _ _ _ _ Ha). reflexivity.
  - (* repeated *) intros l d i next sub Hi Hc _ _ evs s. rewrite (run_at _ _ _ _ _ _ _ _ Hi). cbv beta zeta iota. intros H.
    assert (H1 : fst (prep_loop (fun evs => run f (Some sub) evs) f 0 u32_max 0%N [] s) <> OutOfFuel).
    { intros E. apply H. destruct (prep_loop _ _ _ _ _ _ _) as (x & s2) eqn:Eo in E |- *. cbn in E. subst x. rewrite (pbind_fuel _ _ _ _ Eo). reflexivity. }
    destruct (rep_sound (fun evs => run f (Some sub) evs) (NDefs d) (fun t s0 => sound_sub f IH0 _ _ t s0 Hc) _ _ _ _ _ _ H1) as (o & Ho & Ha).
    exists o. split; [apply ev_repeated; exact Ho|]. destruct o as [s' e|l' s' e|[e|]]; cbn in Ha.
    + exists f. split; [lia|]. rewrite (pbind_ok _ _ _ _ _ Ha). reflexivity.
    + destruct Ha as (-> & er & Hl & Ha). exists er. split; [exact Hl|]. rewrite (pbind_ok _ _ _ _ _ Ha), app_nil_r. reflexivity.
    + destruct Ha as (s' & Ha). exists s'. rewrite (pbind_err _ _ _ _ _ Ha). reflexivity.
    + destruct Ha as (pn & s' & Ha). exists pn, s'. rewrite (pbind_panic _ _ _ _ _ Ha). reflexivity.
  - (* grouped *) intros l d i next _ IHd _ evs s H. destruct (IHd I evs s H) as (o & Ho & Ha). exists o. split; [apply ev_grouped; exact Ho|exact Ha].
  - (* factor one *) intros p i next _ IHp _ evs s H. destruct (IHp I evs s H) as (o & Ho & Ha). exists o. split; [apply ev_factor_one; exact Ho|].
    destruct p; exact Ha.
  - (* factor many *) intros k p i next sub l Hk Hi Hc _ _ evs s. rewrite (run_at _ _ _ _ _ _ _ _ Hi). cbv beta zeta iota. intros H.
    assert (H1 : fst (prep_loop (fun evs => run f (Some sub) evs) f k k 0%N [] s) <> OutOfFuel).
    { intros E. apply H. destruct (prep_loop _ _ _ _ _ _ _) as (x & s2) eqn:Eo in E |- *. cbn in E. subst x. rewrite (pbind_fuel _ _ _ _ Eo). reflexivity. }
    destruct (rep_sound (fun evs => run f (Some sub) evs) (NPrim p) (fun t s0 => sound_sub f IH0 _ _ t s0 Hc) _ _ _ _ _ _ H1) as (o & Ho & Ha).
    exists o. split; [apply ev_factor_many; [exact Hk|exact Ho]|]. destruct o as [s' e|l' s' e|[e|]]; cbn in Ha.
    + exists f. split; [lia|]. rewrite (pbind_ok _ _ _ _ _ Ha). cbn [exit]. apply N.eqb_neq in Hk. rewrite Hk. destruct p; reflexivity.
    + destruct Ha as (-> & er & Hl & Ha). exists er. split; [exact Hl|]. rewrite (pbind_ok _ _ _ _ _ Ha), app_nil_r. reflexivity.
    + destruct Ha as (s' & Ha). exists s'. rewrite (pbind_err _ _ _ _ _ Ha). reflexivity.
    + destruct Ha as (pn & s' & Ha). exists pn, s'. rewrite (pbind_panic _ _ _ _ _ Ha). reflexivity.
  - (* term *) intros [k p] i next _ IHt _ evs s H. destruct (IHt I evs s H) as (o & Ho & Ha). exists o. split; [apply ev_term_plain; exact Ho|].
    destruct o; auto. destruct Ha as (f' & Hf & Ha). exists f'. split; [exact Hf|]. rewrite Ha. cbn. destruct p; auto. destruct (N.eqb k 1); reflexivity.
  - (* exception *) intros fa ex i next ia ie l Hi Hca _ Hce _ _ evs s. rewrite (run_at _ _ _ _ _ _ _ _ Hi). cbv beta zeta iota. intros H. unfold pexcept_scan in *.
    pose proof (sound_sub f IH0 _ _ [] s Hca) as Hs. pose proof (fwd_run g f None (Some ia) [] s s (moved_refl s)) as Hmv.
    destruct (run f (Some ia) [] s) as (x & s1) eqn:Er. cbn [fst snd] in Hs, Hmv.
    destruct x as [(p & t1)|er|pn|].
    4:{ exfalso. apply H. erewrite pbind_fuel. 2:{ rewrite (pbind_ok pget _ s _ _ eq_refl). rewrite (pbind_fuel _ _ _ _ Er). reflexivity. } reflexivity. }
    2:{ destruct Hs as (o & Ho & Ha); [discriminate|].
        destruct o as [s' e|l' s' e|[e|]]; cbn in Ha; try discriminate; try (destruct Ha as (? & _ & ?); discriminate); try (destruct Ha as (? & ? & ?); discriminate).
        destruct Ha as (s' & Ha). injection Ha as -> ->. eexists. split; [eapply ev_term_halt; eauto|]. cbn. exists s'.
        erewrite pbind_err. 2:{ rewrite (pbind_ok pget _ s _ _ eq_refl). rewrite (pbind_err _ _ _ _ _ Er). reflexivity. } reflexivity. }
    2:{ destruct Hs as (o & Ho & Ha); [discriminate|].
        destruct o as [s' e|l' s' e|[e|]]; cbn in Ha; try discriminate; try (destruct Ha as (? & _ & ?); discriminate); try (destruct Ha as (? & ?); discriminate).
        eexists. split; [eapply ev_term_halt; eauto|]. cbn. exists pn, s1.
        erewrite pbind_panic. 2:{ rewrite (pbind_ok pget _ s _ _ eq_refl). rewrite (pbind_panic _ _ _ _ _ Er). reflexivity. } reflexivity. }
    destruct Hs as (o & Ho & Ha); [discriminate|].
    destruct o as [s' e|l' s' e|[e|]]; cbn in Ha; try (destruct Ha as (? & ?); discriminate); try (destruct Ha as (? & ? & ?); discriminate).
    2:{ destruct Ha as (er & Hl & Ha). injection Ha as -> -> ->. eexists. split; [eapply ev_term_no; eauto|]. exists er. split; [exact Hl|].
        erewrite pbind_ok. 2:{ rewrite (pbind_ok pget _ s _ _ eq_refl). rewrite (pbind_ok _ _ _ _ _ Er). rewrite (pbind_ok (pput s) _ s' tt s eq_refl). reflexivity. }
        rewrite app_nil_r. reflexivity. }
    injection Ha as -> -> ->. destruct Hmv as (w & Hw).
    pose proof (between_goes _ _ _ Hw) as Hb.
    revert H. erewrite pbind_cong. 2:{ rewrite (pbind_ok pget _ s _ _ eq_refl). rewrite (pbind_ok _ _ _ _ _ Er). rewrite (pbind_ok pget _ s' _ _ eq_refl). rewrite Hb. cbv zeta. reflexivity. }
    destruct (Nat.ltb (length w) f).
    2:{ intros H. exfalso. apply H. erewrite pbind_fuel; reflexivity. }
    pose proof (sound_sub f IH0 _ _ [] (Pst w (p_at s)) Hce) as Hs2.
    destruct (run f (Some ie) [] (Pst w (p_at s))) as (x & s2) eqn:Er2. cbn [fst] in Hs2.
    destruct x as [(p2 & t2)|er|pn|]; intros H.
    4:{ exfalso. apply H. erewrite pbind_fuel; [reflexivity|]. rewrite (pbind_fuel _ _ _ _ Er2). reflexivity. }
    2:{ destruct Hs2 as (o & Ho2 & Ha2); [discriminate|].
        destruct o as [s3 e3|l' s3 e3|[e3|]]; cbn in Ha2; try discriminate; try (destruct Ha2 as (? & _ & ?); discriminate); try (destruct Ha2 as (? & ? & ?); discriminate).
        destruct Ha2 as (s3 & Ha2). injection Ha2 as -> ->. eexists. split; [eapply ev_term_exc_halt; eauto|]. cbn. eexists.
        erewrite pbind_err; [reflexivity|]. rewrite (pbind_err _ _ _ _ _ Er2). reflexivity. }
    2:{ destruct Hs2 as (o & Ho2 & Ha2); [discriminate|].
        destruct o as [s3 e3|l' s3 e3|[e3|]]; cbn in Ha2; try discriminate; try (destruct Ha2 as (? & _ & ?); discriminate); try (destruct Ha2 as (? & ?); discriminate).
        eexists. split; [eapply ev_term_exc_halt; eauto|]. cbn. eexists _, _.
        erewrite pbind_panic; [reflexivity|]. rewrite (pbind_panic _ _ _ _ _ Er2). reflexivity. }
    destruct Hs2 as (o & Ho2 & Ha2); [discriminate|].
    destruct o as [s3 e3|l' s3 e3|[e3|]]; cbn in Ha2; try (destruct Ha2 as (? & ?); discriminate); try (destruct Ha2 as (? & ? & ?); discriminate).
    + injection Ha2 as -> -> ->. destruct (p_rest s3) as [|c3 r3] eqn:E3.
      * eexists. split; [eapply ev_term_excepted; eauto|]. pose proof (pexpected_at g i s _ _ _ _ Hi) as He. eexists. split; [reflexivity|].
        erewrite pbind_ok. 2:{ rewrite (pbind_ok _ _ _ _ _ Er2). rewrite peof_none, E3. cbn [fst].
          rewrite (pbind_ok (pput s) _ s' tt s eq_refl). rewrite (pbind_ok _ _ _ _ _ He). reflexivity. }
        rewrite app_nil_r. reflexivity.
      * eexists. split. { eapply ev_term_kept; eauto. left. eexists _, _. split; [reflexivity|]. rewrite E3. discriminate. }
        exists f. split; [lia|]. erewrite pbind_ok. 2:{ rewrite (pbind_ok _ _ _ _ _ Er2). rewrite peof_none, E3. cbn [fst]. reflexivity. }
        cbn. destruct fa as [k []]; reflexivity.
    + destruct Ha2 as (er & Hl & Ha2). injection Ha2 as -> -> ->.
      eexists. split. { eapply ev_term_kept; eauto. } exists f. split; [lia|].
      erewrite pbind_ok. 2:{ rewrite (pbind_ok _ _ _ _ _ Er2). cbn [fst pret]. reflexivity. }
      cbn. destruct fa as [k []]; reflexivity.
  - (* last term *) intros t i next Hc IHt He evs s H. cbn in He. subst next. destruct (IHt I evs s H) as (o & Ho & Ha).
    destruct (bare_group t) as [d|] eqn:Eb.
    + exists o. split; [eapply ev_seq_group; [exact Eb|eapply bare_group_ev; eauto]|]. destruct o; auto. destruct Ha as (f' & Hf & Ha). exists f'. split; [exact Hf|].
      rewrite exit_none in *. exact Ha.
    + destruct o as [s' e|l' s' e|h].
      * exists (Match s' e). split. { rewrite <- (app_nil_r e). change (Match s' (e ++ [])) with (before e (Match s' [])). eapply ev_seq; eauto. constructor. }
        rewrite exit_none in *. exact Ha.
      * exists (No l' s' e). split; [apply ev_seq_no; auto|exact Ha].
      * exists (Halt h). split; [apply ev_seq_halt; auto|exact Ha].
  - (* more terms *) intros t t2 ts i j next Hc IHt Hc2 _ He evs s H. cbn in He. subst next. destruct (IHt I evs s H) as (o & Ho & Ha).
    destruct (bare_group t) as [d|] eqn:Eb.
    + exists o. split; [eapply ev_seq_group; [exact Eb|eapply bare_group_ev; eauto]|]. destruct o; auto. destruct Ha as (f' & Hf & Ha). exists f'. split; [exact Hf|].
      rewrite exit_none. cbn [exit] in Ha. rewrite Eb in Ha. exact Ha.
    + destruct o as [s' e|l' s' e|h].
      * destruct Ha as (f' & Hf & Ha). cbn [exit] in Ha. rewrite Eb in Ha. rewrite Ha in H |- *.
        destruct (IHf f' Hf (NSeq (t2 :: ts)) j None (evs ++ e) s' Hc2 eq_refl H) as (o2 & Ho2 & Ha2).
        exists (before e o2). split; [eapply ev_seq; eauto|]. destruct o2 as [s2 e2|l2 s2 e2|h]; cbn [exit before answers] in *.
        -- destruct Ha2 as (f2 & Hf2 & Ha2). exists f2. split; [lia|]. rewrite app_assoc. exact Ha2.
        -- destruct Ha2 as (er & Hl & Ha2). exists er. split; [exact Hl|]. rewrite app_assoc. exact Ha2.
        -- exact Ha2.
      * exists (No l' s' e). split; [apply ev_seq_no; auto|exact Ha].
      * exists (Halt h). split; [apply ev_seq_halt; auto|exact Ha].
  - (* one definition *) intros ts i Hc IHs _ evs s H. destruct (IHs eq_refl evs s H) as (o & Ho & Ha). exists o. split; [apply ev_defs_one; exact Ho|exact Ha].
  - (* none *) intros i l Hi _ evs s. rewrite (run_at _ _ _ _ _ _ _ _ Hi). intros _. exists (Halt Crashed). split; [apply ev_defs_none|]. cbn. eexists _, _. reflexivity.
  - (* definitions *) intros d1 d2 ds i l subs Hi Hcs _ _ evs s. rewrite (run_at _ _ _ _ _ _ _ _ Hi). cbv beta zeta iota. intros H.
    assert (H1 : fst (por_loop (fun a => run f (Some a) []) subs s) <> OutOfFuel).
    { intros E. apply H. destruct (por_loop _ _ _) as (x & s2) eqn:Eo in E |- *. cbn in E. subst x. rewrite (pbind_fuel _ _ _ _ Eo). reflexivity. }
    destruct (or_sound (fun a => run f (Some a) []) _ _ Hcs (fun d i s0 Hc Hx => sound_sub f IH0 _ _ [] s0 Hc Hx) ltac:(discriminate) s H1) as (o & Ho & Ha).
    destruct o as [s' e|l' s' e|[e|]]; cbn in Ha.
    + eexists. split; [apply ev_defs; exact Ho|]. exists f. split; [lia|]. rewrite (pbind_ok _ _ _ _ _ Ha). reflexivity.
    + destruct Ha as (-> & -> & es & er & Hp & -> & Ha). rewrite (pbind_ok _ _ _ _ _ Ha). rewrite Hp. rewrite (pbind_ok ploc _ s _ _ eq_refl).
      destruct (loc_eqb (e_loc l') (p_at s)) eqn:El.
      * apply loc_eqb_eq in El. eexists. split; [eapply ev_defs_here; eauto|]. eexists. split; [reflexivity|].
        rewrite (pbind_ok _ _ _ _ _ (pexpected_at g i s _ _ _ _ Hi)), app_nil_r. reflexivity.
      * assert (Hne : e_loc l' <> p_at s) by (intros E; rewrite E, loc_eqb_refl in El; discriminate).
        eexists. split; [eapply ev_defs_ahead; eauto|]. exists l'. split; [reflexivity|]. rewrite app_nil_r. reflexivity.
    + destruct Ha as (s' & Ha). eexists. split; [eapply ev_defs_halt; eauto|]. exists s'. rewrite (pbind_err _ _ _ _ _ Ha). reflexivity.
    + destruct Ha as (pn & s' & Ha). eexists. split; [eapply ev_defs_halt; eauto|]. exists pn, s'. rewrite (pbind_panic _ _ _ _ _ Ha). reflexivity.
Qed.
End Run.
