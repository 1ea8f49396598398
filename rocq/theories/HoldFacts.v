(** Marks that a parse leaves in the reader. *)
From Coq Require Import String List NArith Arith Bool Lia.
From Verif Require Import Base Ident Tokenizer Ast Lex Syntax Io Graph Machine SpecText SpecIo SpecSyntax TextFacts TokRun IoFacts SyntaxFacts SpecParse SpecMachine SpecGauge GaugeFacts SpecHold Pure PureFacts ParseFacts CodeFacts RunFacts RunComplete EvFacts MachineFacts.
Import ListNotations.
Open Scope nat_scope.

(** ** Instructions that leave a mark *)
Section Pin.
Variable g : graph.
Inductive pin : nat -> Prop :=
| pi_or : forall i next subs l sym, at_ (g_instrs g) i next (StOr subs) l sym -> pin i
| pi_rep : forall i next mn mx sub l sym, at_ (g_instrs g) i next (StRepetition mn mx sub) l sym -> (1 <= mn)%N -> (1 <= mx)%N -> pin i
| pi_except : forall i next fa ex l sym, at_ (g_instrs g) i next (StExcept fa ex) l sym -> pin i
| pi_chars : forall i next p mn mx l sym, at_ (g_instrs g) i next (StSpecial (ScChars p mn mx)) l sym -> pin i
| pi_alias : forall i next id l sym a, at_ (g_instrs g) i next (StAlias id) l sym -> g_label g id = Some a -> pin a -> pin i.
Lemma pins_pin : forall rs cfg, faithful cfg rs g -> forall n, pins rs cfg n -> forall i next, code cfg (g_instrs g) n i next -> pin i.
Proof.
  intros rs cfg Hg n H. induction H; intros i next C; inversion C; subst; eauto using pi_or, pi_except.
  - lia.
  - eapply pi_rep; [eassumption|lia|lia].
  - congruence.
  - match goal with K : names _ _ _ |- _ => destruct (proj1 (Hg id) _ K) as (a & A1 & A2 & _) end. eapply pi_alias; eauto.
  - match goal with K : cfg _ _ = _, A : nth_error _ _ = _ |- _ => rewrite K in A; eapply pi_chars; exact A end.
Qed.

Section Run.
Variable debug : bool.
Variable T : str.
Variable E : option error.
Variable l0 : location.
Notation rep := (rep T E l0).
Notation simc := (simc T E l0).
Notation run := (run debug g).

(** When [m] ends with an [ok] result, a mark is left where it began, and those of
    before are left as well. *)
Definition leaves_pin {A} (ctx : list (N * nat)) (ok : A -> Prop) (m : M A) : Prop :=
  forall r c, rep r c -> among ctx (c_marks c) -> forall a r', m r = (Ok a, r') -> ok a ->
  exists c' k, rep r' c' /\ among ((k, c_pos c) :: ctx) (c_marks c').

Lemma simc_after : forall {A} ctx base (m : M A) f r c x r', simc ctx base m f -> rep r c -> among ctx (c_marks c) -> m r = (x, r') ->
  exists c', rep r' c' /\ among base (c_marks c').
Proof.
  intros A ctx base m f r c x r' S R O H. destruct (S r c R O) as (r1 & c1 & K1 & K2 & _ & K4). rewrite H in K1. injection K1 as _ ->. eauto.
Qed.
Lemma mbind_split : forall {A B} (m : M A) (k : A -> M B) r b r', mbind m k r = (Ok b, r') ->
  exists a r1, m r = (Ok a, r1) /\ k a r1 = (Ok b, r').
Proof. intros A B m k r b r' H. unfold mbind in H. destruct (m r) as ([a|e|p|] & r1); try discriminate. eauto. Qed.
Lemma run_sim : forall f ctx next evs, simc ctx ctx (run f next evs) (prun g f E next evs).
Proof. intros. apply simc_run. Qed.
(** After the pin. *)
Lemma pin_then : forall {A B} ctx (ok : A -> Prop) (ok' : B -> Prop) (m : M A) (k : A -> M B),
  leaves_pin ctx ok m -> (forall a, (ok a /\ exists f, forall ctx, simc ctx ctx (k a) f) \/ (forall r b r', k a r = (Ok b, r') -> ~ ok' b)) ->
  leaves_pin ctx ok' (mbind m k).
Proof.
  intros A B ctx ok ok' m k Hm Hk r c R O b r' H Hb. destruct (mbind_split _ _ _ _ _ H) as (a & r1 & H1 & H2).
  destruct (Hk a) as [(Ha & f & S)|N]; [|exfalso; eapply N; eauto].
  destruct (Hm r c R O a r1 H1 Ha) as (c1 & n & R1 & O1). destruct (simc_after _ _ _ _ _ _ _ _ (S _) R1 O1 H2) as (c2 & R2 & O2). eauto.
Qed.
(** Nothing moves before the pin. *)
Lemma pin_location : forall {B} ctx (ok : B -> Prop) (k : location -> M B), (forall l, leaves_pin ctx ok (k l)) -> leaves_pin ctx ok (mbind m_location k).
Proof. intros B ctx ok k Hk r c R O b r' H Hb. unfold mbind, m_location in H. exact (Hk _ r c R O b r' H Hb). Qed.
Lemma pin_mark : forall {B} ctx (ok : B -> Prop) (k : N -> M B),
  (forall m q r c, rep r c -> c_pos c = q -> among ((m, q) :: ctx) (c_marks c) -> forall b r', k m r = (Ok b, r') -> ok b ->
     exists c' n, rep r' c' /\ among ((n, q) :: ctx) (c_marks c')) -> leaves_pin ctx ok (mbind (m_mark debug) k).
Proof.
  intros B ctx ok k Hk r c R O b r' H Hb. destruct (rep_mark' T E l0 debug r c R) as (m & r1 & K1 & _ & K3 & _).
  rewrite (mbind_ok _ _ _ _ _ K1) in H. apply (Hk m (c_pos c) r1 _ K3) with (b := b) (r' := r'); auto. cbn. apply am_keep. exact O.
Qed.

Lemma or_pin : forall f ctx subs, leaves_pin ctx (fun o => exists t, o = inr t) (or_loop debug (fun s => run f (Some s) []) subs).
Proof.
  intros f ctx subs. induction subs as [|s subs IH]; cbn [or_loop].
  { intros r c R O o r' H (t & ->). discriminate. }
  apply pin_mark. intros m q r c R Q O o r' H (t & ->).
  destruct (mbind_split _ _ _ _ _ H) as ((p & temp) & r1 & H1 & H2). clear H.
  destruct (simc_after _ _ _ _ _ _ _ _ (run_sim f _ (Some s) []) R O H1) as (c1 & R1 & O1). destruct p as [|e].
  - injection H2 as _ <-. eauto.
  - destruct (mbind_split _ _ _ _ _ H2) as (x & r2 & H3 & H4). destruct (reset_known _ _ _ _ _ _ _ _ R1 O1) as (n & r3 & c3 & K1 & K2 & K3 & K4 & _).
    rewrite H3 in K1. injection K1 as -> ->. destruct (mbind_split _ _ _ _ _ H4) as (o2 & r4 & H5 & H6). injection H6 as H6 <-.
    destruct o2 as [es|t2]; [discriminate|]. destruct (IH r3 c3 K2 K4 _ _ H5 (ex_intro _ t2 eq_refl)) as (c' & k & A & B). rewrite K3 in B. eauto.
Qed.
Lemma rep_pin : forall f ctx sub fl mn mx, (1 <= mn)%N -> (1 <= mx)%N ->
  leaves_pin ctx (fun o => exists t, o = inr t) (rep_loop debug (fun e => run f (Some sub) e) fl mn mx 0%N []).
Proof.
  intros f ctx sub fl mn mx H1 H2. destruct fl as [|fl]; cbn [rep_loop].
  { intros r c R O o r' H (t & ->). discriminate. }
  replace (N.ltb 0 mx) with true by (symmetry; apply N.ltb_lt; lia). replace (N.ltb 0 mn) with true by (symmetry; apply N.ltb_lt; lia).
  apply pin_location. intros l. apply pin_mark. intros m q r c R Q O o r' H (t & ->).
  destruct (mbind_split _ _ _ _ _ H) as ((p & temp) & r1 & A1 & A2). clear H.
  destruct (simc_after _ _ _ _ _ _ _ _ (run_sim f _ (Some sub) []) R O A1) as (c1 & R1 & O1). destruct p as [|e]; [|discriminate].
  unfold mbind, m_location in A2. destruct (_ && _)%bool; [discriminate|].
  destruct (simc_after _ _ _ _ _ _ _ _ (simc_rep_loop debug T E l0 _ _ (fun e => prun g f E (Some sub) e) fl mn mx (0 + 1)%N temp ltac:(intros; apply run_sim)) R1 O1 A2) as (c2 & R2 & O2). eauto.
Qed.
Lemma except_pin : forall f fl ctx addr fa ex evs, leaves_pin ctx (fun pe => fst pe = Proceed)
  (except_scan debug g (fun a e => run f (Some a) e) fl addr fa ex evs).
Proof.
  intros f fl ctx addr fa ex evs. unfold except_scan. apply pin_location. intros begin. apply pin_mark. intros m q r c R Q O pe r' H Hp.
  destruct (mbind_split _ _ _ _ _ H) as ((p & temp) & r1 & A1 & A2). clear H.
  destruct (simc_after _ _ _ _ _ _ _ _ (run_sim f _ (Some fa) []) R O A1) as (c1 & R1 & O1). destruct p as [|e].
  2:{ destruct (mbind_split _ _ _ _ _ A2) as (n & r2 & B1 & B2). injection B2 as <- _. discriminate. }
  assert (L : m_location r1 = (Ok (loc_at T l0 (c_pos c1)), r1)).
  { destruct R1 as (b & R1). unfold m_location. rewrite (rp_loc _ _ _ _ _ _ R1). reflexivity. }
  rewrite (mbind_ok _ _ _ _ _ L) in A2.
  assert (Lq : q <= c_pos c1) by (eapply mark_below; eauto).
  destruct (reset_known _ _ _ _ _ _ _ _ R1 O1) as (n & r2 & c2 & K1 & K2 & K3 & K4 & _). rewrite (mbind_ok _ _ _ _ _ K1) in A2.
  destruct (rep_mark' T E l0 debug r2 c2 K2) as (m2 & r3 & J1 & J2 & J3 & _). rewrite (mbind_ok _ _ _ _ _ J1) in A2. rewrite K3 in J3.
  destruct (mbind_split _ _ _ _ _ A2) as (buf & r4 & B1 & B2).
  destruct (capture_ok debug T E l0 fl (c_pos c1) r3 _ J3 ltac:(discriminate) Lq (rep_bound _ _ _ _ _ R1)) as (r5 & c5 & I1 & I2 & I3 & I4).
  rewrite B1 in I4. injection I4 as _ <-. cbn [c_marks] in I2.
  unfold mbind at 1, m_location in B2. destruct (debug && _)%bool; [discriminate|]. cbv zeta in B2.
  match type of B2 with match fst ?x with _ => _ end _ = _ => destruct (fst x) as [[|]|e|x1|] end; try discriminate.
  - destruct (mbind_split _ _ _ _ _ B2) as (n2 & r6 & D1 & D2). destruct (mbind_split _ _ _ _ _ D2) as (e & r7 & D3 & D4). injection D4 as <- _. discriminate.
  - injection B2 as _ <-. exists c5, m2. split; [exact I1|]. rewrite I2. apply am_keep. exact K4.
Qed.
Lemma among_twice : forall m q m2 ctx r c, rep r c -> among ((m2, q) :: (m, q) :: ctx) (c_marks c) -> m2 = m.
Proof.
  intros m q m2 ctx r c (b & R) O. pose proof (among_in _ _ O _ (or_introl eq_refl)) as H1. pose proof (among_in _ _ O _ (or_intror (or_introl eq_refl))) as H2.
  pose proof (rp_marks _ _ _ _ _ _ R) as F. rewrite Forall_forall in F. destruct (F _ H1) as (_ & _ & A & _). destruct (F _ H2) as (_ & _ & B & _).
  cbn [fst snd] in *. congruence.
Qed.
Lemma chars_pin : forall sub fl ctx addr ins p mn mx evs, leaves_pin ctx (fun pe => fst pe = Proceed)
  (special_step debug g sub fl addr ins (ScChars p mn mx) evs).
Proof.
  intros sub fl ctx addr ins p mn mx evs. unfold special_step. apply pin_mark. intros m q r c R Q O pe r' H Hp.
  destruct (mbind_split _ _ _ _ _ H) as (rc & r1 & H1 & H2). clear H. cbn [special_scan] in H1. unfold chars_scan in H1.
  destruct (rep_mark' T E l0 debug r c R) as (m2 & r2 & K1 & _ & K3 & _). rewrite (mbind_ok _ _ _ _ _ K1) in H1. rewrite Q in K3.
  unfold mbind at 1, m_location in H1. destruct (mbind_split _ _ _ _ _ H1) as (buf & r3 & H3 & H4). clear H1.
  assert (O2 : among ((m2, q) :: (m, q) :: ctx) (c_marks (Cur q ((m2, q) :: c_marks c)))) by (apply am_keep; exact O).
  destruct (simc_after _ _ _ _ _ _ _ _ (simc_chars_loop debug T E l0 fl p mx 0%N _) K3 O2 H3) as (c3 & R3 & O3).
  destruct (match mn with Some _ => _ | None => false end).
  - destruct (mbind_split _ _ _ _ _ H4) as (x & r4 & _ & H5). injection H5 as <- <-.
    destruct (mbind_split _ _ _ _ _ H2) as (y & r5 & _ & H6). destruct (mbind_split _ _ _ _ _ H6) as (e & r6 & _ & H7). injection H7 as <- _. discriminate.
  - injection H4 as <- <-. rewrite (among_twice _ _ _ _ _ _ R3 O3) in O3. destruct (mbind_split _ _ _ _ _ H2) as ([] & r5 & H5 & H6). injection H6 as _ <-.
    destruct (unmark_known _ _ _ _ _ _ _ _ R3 O3) as (r6 & c6 & J1 & J2 & _ & J4). rewrite H5 in J1. injection J1 as ->. eauto.
Qed.

Theorem run_pin : forall i, pin i -> forall f ctx evs, leaves_pin ctx (fun pe => fst pe = Proceed) (run f (Some i) evs).
Proof.
  assert (Hc : forall f next (pe : prospect * list event), (fst pe = Proceed /\ exists h, forall ctx, simc ctx ctx
     (let '(p, evs) := pe in match p with NotThisWay e => ret (NotThisWay e, evs) | Proceed => run f next evs end) h) \/
     (forall r b r', (let '(p, evs) := pe in match p with NotThisWay e => ret (NotThisWay e, evs) | Proceed => run f next evs end) r = (Ok b, r') -> ~ fst b = Proceed)).
  { intros f next ([|e] & evs); [left|right].
    - split; [reflexivity|]. exists (prun g f E next evs). intros ctx. apply run_sim.
    - intros r b r' [= <- _]. discriminate. }
  induction 1 as [i next subs l sym A|i next mn mx sub l sym A H1 H2|i next fa ex l sym A|i next p mn mx l sym A|i next id l sym a A H1 H2 IH];
    intros [|f] ctx evs; try (intros r c R O pe r' H; discriminate H); cbn [Machine.run]; rewrite A; cbn [i_step i_next].
  - eapply pin_then; [apply or_pin|]. intros [es|t]; [right|left].
    + intros r b r' H Hb. destruct (pick_error (rev es)) as [err|]; [|discriminate]. unfold mbind at 1, m_location in H.
      destruct (loc_eqb _ _); [destruct (mbind_split _ _ _ _ _ H) as (e & r1 & _ & H3); injection H3 as <- _|injection H as <- _]; discriminate.
    + split; [eauto|]. exists (prun g f E next (evs ++ t)). intros ctx'. apply run_sim.
  - eapply pin_then; [apply rep_pin; assumption|]. intros [e|t]; [right|left].
    + intros r b r' [= <- _] Hb. discriminate.
    + split; [eauto|]. exists (prun g f E next (evs ++ t)). intros ctx'. apply run_sim.
  - eapply pin_then; [apply except_pin|]. apply Hc.
  - eapply pin_then; [apply chars_pin|]. apply Hc.
  - rewrite H1. destruct (g_canonical g id) as [nm|]; [|intros r c R O pe r' H; discriminate H]. apply pin_location. intros lo.
    eapply pin_then; [apply IH|]. intros ([|e] & t); [left|right].
    + split; [reflexivity|]. eexists (letp l' := ploc in prun g f E next (evs ++ t ++ [EvEnd l l' nm])). intros ctx'. apply simc_seq; [apply simc_location|]. intros l'. apply run_sim.
    + intros r b r' [= <- _] Hb. discriminate.
Qed.
Theorem parse_pin : forall i, pin i -> forall fuel ctx, leaves_pin ctx (fun _ => True) (machine_parse debug g fuel i).
Proof.
  intros i Hi fuel ctx. unfold machine_parse. eapply pin_then; [apply (run_pin i Hi)|]. intros ([|e] & evs); [left|right].
  - split; [reflexivity|]. exists (letp b := peof E in if b then (if (debug && negb (removed_labels_agree (List.tl evs)))%bool then pcrash PDebugAssert else pret (remove_empty_pairs evs))
       else letp e := perr_expected E g None in pfail e). intros ctx'. apply simc_seq; [apply simc_is_eof|]. intros [|].
    + destruct (debug && _)%bool; [apply simc_crash|apply simc_ret].
    + apply simc_seq; [apply simc_err_expected|]. intros e. apply simc_fail.
  - intros r b r' H. discriminate.
Qed.
End Run.
End Pin.

(** ** Through the API *)
Lemma among_length : forall {A} (a b : list A), among a b -> length a <= length b.
Proof. induction 1; cbn; lia. Qed.
Theorem parse_holds : forall rs cfg g id m debug fuel rd evs rd' r, parser_for rs cfg g id m -> reader rd ->
  parser_parse debug g fuel m rd = (Ok evs, rd') -> names rs id r -> pins rs cfg (NDefs (r_defs r)) ->
  length (unread rd) <= length (ub_buf (mr_ub rd')) /\ length (ub_stack (mr_ub rd)) < length (ub_stack (mr_ub rd')).
Proof.
  intros rs cfg g id m debug fuel rd evs rd' r Hp Hr H Hn Hpin.
  destruct (parser_rule _ _ _ _ _ Hp) as (r2 & Hn2 & _ & Ha). rewrite (names_unique rs _ _ _ (parser_unique _ _ _ _ _ Hp) Hn2 Hn) in Ha. clear r2 Hn2.
  pose proof (parser_faithful _ _ _ _ _ Hp) as Hg.
  assert (Hpi : pin g (mc_entry m)).
  { destruct (proj1 (Hg (r_id r)) r) as (a & A1 & A2 & _). { destruct Hn as (Hin & _). split; [exact Hin|]. apply same_name_keyed. reflexivity. }
    eapply pi_alias; [exact Ha|exact A1|]. exact (pins_pin g rs cfg Hg _ Hpin _ _ A2). }
  destruct (reader_rep rd Hr) as (T & l0 & c & R).
  destruct (parse_pin g debug T _ l0 _ Hpi fuel (c_marks c) rd c R (among_refl _) evs rd' H I) as (c' & k & R' & O').
  pose proof (parse_all_read debug g fuel m rd evs Hr) as Hend. rewrite H in Hend. specialize (Hend eq_refl). cbn [snd] in Hend. destruct Hend as (_ & Hend).
  destruct R as (b & R). destruct R' as (b' & R'). unfold unread in *.
  rewrite (rp_rest _ _ _ _ _ _ R'), skipn_all_iff in Hend || (rewrite (rp_rest _ _ _ _ _ _ R') in Hend; apply skipn_nil_len in Hend; [|exact (rp_len _ _ _ _ _ _ R')]).
  rewrite (rp_rest _ _ _ _ _ _ R), skipn_length. split.
  - pose proof (rp_marks _ _ _ _ _ _ R') as F. rewrite Forall_forall in F. destruct (F _ (among_in _ _ O' _ (or_introl eq_refl))) as (B1 & _). cbn [snd] in B1.
    pose proof (rp_pos _ _ _ _ _ _ R'). pose proof (rp_next _ _ _ _ _ _ R'). lia.
  - rewrite (rp_stack _ _ _ _ _ _ R), (rp_stack _ _ _ _ _ _ R'), !map_length. apply among_length in O'. exact O'.
Qed.

(** ** Terminals one after the other *)
Lemma compared_all : forall s w, compared s (s ++ w) = length s.
Proof. induction s as [|c s IH]; intros w; [destruct w; reflexivity|]. cbn [app compared]. rewrite N.eqb_refl, IH. reflexivity. Qed.
Section Flat.
Variable debug : bool.
Variable g : graph.
Variable T : str.
Variable E : option error.
Variable l0 : location.
Notation gauged := (gauged T E l0).
Notation run := (run debug g).

(** The same marks, and nothing held if nothing was held. *)
Definition eased (h h' : gauge) : Prop := g_marks h' = g_marks h /\ (g_marks h = [] -> g_held h = 0 -> g_held h' = 0).
Lemma eased_refl : forall h, eased h h.
Proof. split; auto. Qed.
Lemma eased_trans : forall a b c, eased a b -> eased b c -> eased a c.
Proof. intros a b c (A1 & A2) (B1 & B2). split; [congruence|]. intros H1 H2. apply B2; [congruence|auto]. Qed.
Lemma still_at : forall r h, gauged r h -> g_held h = 0 -> g_pos h = g_seen h.
Proof.
  intros r h (base & R & G1 & G2 & _) H. pose proof (rp_pos _ _ _ _ _ _ R) as P1. pose proof (rp_next _ _ _ _ _ _ R) as P2. cbn [at_gauge c_pos] in P1. lia.
Qed.
Lemma flat_terminal : forall addr ins w evs r h pe r', gauged r h -> terminal_step debug g addr ins w evs r = (Ok pe, r') -> fst pe = Proceed ->
  exists h', gauged r' h' /\ eased h h'.
Proof.
  intros addr ins w evs r h pe r' G H Hp. unfold terminal_step in H. destruct (mbind_split _ _ _ _ _ H) as (b & r1 & H1 & H2). clear H.
  destruct b; [|destruct (mbind_split _ _ _ _ _ H2) as (e & r2 & _ & H3); injection H3 as <- _; discriminate].
  unfold mbind at 1, m_location in H2. destruct (mbind_split _ _ _ _ _ H2) as (n & r2 & H3 & H4). injection H4 as _ <-. clear H2.
  assert (A1 : perform1 debug (OPrefix w) r = (Ok (ABool true), r1)) by (cbn [perform1]; rewrite H1; reflexivity).
  assert (A2 : perform1 debug (OSkip (length w)) r1 = (Ok (ACount n), r2)) by (cbn [perform1]; rewrite H3; reflexivity).
  destruct (gauge_step _ _ _ _ _ _ _ _ _ G A1) as (h1 & S1 & G1). destruct (gauge_step _ _ _ _ _ _ _ _ _ G1 A2) as (h2 & S2 & G2).
  assert (Hw : exists rest, skipn (g_pos h) T = w ++ rest).
  { pose proof (gauged_rep _ _ _ _ _ G) as R. destruct (rep_prefix T E l0 debug w r _ R) as (a & ra & ca & _ & _ & _ & _ & K). cbn [at_gauge c_pos] in K.
    destruct (p_prefix_spec T E l0 w _ (rep_bound _ _ _ _ _ R)) as [(x & B1 & _)|[(q & _ & B & _)|(e & y & s' & _ & _ & B)]]; cbn [at_gauge c_pos] in *.
    - eauto.
    - rewrite B in K. cbn [fst] in K. destruct K as (K & _). congruence.
    - rewrite B in K. cbn [fst] in K. destruct K as (K & _). congruence. }
  destruct Hw as (rest & Hw). exists h2. split; [exact G2|].
  inversion S1; subst; try discriminate. 2:{ match goal with K : takes_on (OPrefix _) |- _ => destruct K end. }
  inversion S2; subst; try discriminate. { match goal with K : ahead_only (OSkip _) |- _ => destruct K end. }
  cbn [extent] in *. unfold look_on in *. cbn [moved_to g_pos] in *. rewrite Hw in *. rewrite compared_all in *. rewrite app_length in *. rewrite Nat.min_l in * by lia.
  split; [rewrite read_on_marks; reflexivity|]. intros M0 Z0. pose proof (still_at _ _ G Z0) as Hs.
  unfold read_on. destruct (Nat.eqb_spec (length w) 0) as [Hz|Hz]; [exact Z0|]. cbn [with_mark g_marks g_pos g_seen g_held moved_to]. rewrite M0.
  destruct (Nat.eqb_spec (g_pos h) (Nat.max (g_seen h) (g_pos h + length w))); [lia|].
  destruct (Nat.ltb_spec (g_pos h + length w) (Nat.max (g_seen h) (g_pos h + length w))); [lia|]. reflexivity.
Qed.
Lemma run_none : forall f evs r pe r', run f None evs r = (Ok pe, r') -> r' = r.
Proof. intros [|f] evs r pe r' H; [discriminate|]. injection H as _ <-. reflexivity. Qed.
Theorem flat_run : forall rs cfg, faithful cfg rs g -> forall n, flat rs n -> forall i next, code cfg (g_instrs g) n i next ->
  forall f evs r h pe r', gauged r h -> run f (Some i) evs r = (Ok pe, r') -> fst pe = Proceed ->
  exists nx f1 evs1 r1 h1, (nx = next \/ nx = None) /\ gauged r1 h1 /\ eased h h1 /\ run f1 nx evs1 r1 = (Ok pe, r').
Proof.
  intros rs cfg Hg n Hn. induction Hn as [d H IH|t H IH|t t2 ts H IH H2 IH2|f0 H IH|p H IH|l d H IH|l id ru Hr H IH|l w|l];
    intros i next C f evs r h pe r' G Hrun Hp; inversion C; subst; try (eapply IH; eassumption).
  - match goal with A : code _ _ (NTerm t) _ _, B : code _ _ (NSeq _) _ _ |- _ =>
      destruct (IH _ _ A _ _ _ _ _ _ G Hrun Hp) as (nx & f1 & e1 & r1 & h1 & [->| ->] & A1 & A2 & A3); [|exists None, f1, e1, r1, h1; auto];
      destruct (IH2 _ _ B _ _ _ _ _ _ A1 A3 Hp) as (nx & f2 & e2 & r2 & h2 & B0 & B1 & B2 & B3) end.
    exists nx, f2, e2, r2, h2. split; [exact B0|]. split; [exact B1|]. split; [eapply eased_trans; eauto|exact B3].
  - match goal with K : 1%N <> 1%N |- _ => contradiction K; reflexivity end.
  - match goal with A : code _ _ (NDefs d) _ _ |- _ => destruct (IH _ _ A _ _ _ _ _ _ G Hrun Hp) as (nx & f1 & e1 & r1 & h1 & A0 & A1 & A2 & A3) end.
    exists nx, f1, e1, r1, h1. split; [right; tauto|auto].
  - destruct (proj1 (Hg id) _ Hr) as (a & A1 & A2 & A3). destruct f as [|f]; [discriminate|]. cbn [Machine.run] in Hrun.
    match goal with A : at_ _ _ _ _ _ _ |- _ => rewrite A in Hrun end. cbn [i_step i_next i_def] in Hrun. rewrite A1, A3 in Hrun.
    unfold mbind at 1, m_location in Hrun. destruct (mbind_split _ _ _ _ _ Hrun) as ((p & t) & r1 & B1 & B2). clear Hrun.
    destruct p as [|e]; [|injection B2 as <- _; discriminate]. unfold mbind at 1, m_location in B2.
    destruct (IH _ _ A2 _ _ _ _ _ _ G B1 eq_refl) as (nx & f2 & e2 & r2 & h2 & D0 & D1 & D2 & D3). assert (nx = None) as -> by tauto.
    apply run_none in D3. subst r2. eexists next, f, _, r1, h2. split; [auto|]. split; [exact D1|]. split; [exact D2|exact B2].
  - destruct f as [|f]; [discriminate|]. cbn [Machine.run] in Hrun. match goal with A : at_ _ _ _ _ _ _ |- _ => rewrite A in Hrun end. cbn [i_step i_next] in Hrun.
    destruct (mbind_split _ _ _ _ _ Hrun) as ((p & t) & r1 & B1 & B2). destruct p as [|e]; [|injection B2 as <- _; discriminate].
    destruct (flat_terminal _ _ _ _ _ _ _ _ G B1 eq_refl) as (h1 & D1 & D2). exists next, f, t, r1, h1. auto.
  - destruct f as [|f]; [discriminate|]. cbn [Machine.run] in Hrun. match goal with A : at_ _ _ _ _ _ _ |- _ => rewrite A in Hrun end. cbn [i_step i_next] in Hrun.
    exists next, f, evs, r, h. split; [auto|]. split; [exact G|]. split; [apply eased_refl|exact Hrun].
Qed.
Theorem flat_parse : forall rs cfg i ru l, faithful cfg rs g -> at_ (g_instrs g) i None (StAlias (r_id ru)) l (r_id ru) -> In ru rs -> flat rs (NDefs (r_defs ru)) ->
  forall fuel r h evs r', gauged r h -> machine_parse debug g fuel i r = (Ok evs, r') -> exists h', gauged r' h' /\ eased h h'.
Proof.
  intros rs cfg i ru l Hg Ha Hin Hf fuel r h evs r' G H. unfold machine_parse in H. destruct (mbind_split _ _ _ _ _ H) as ((p & e) & r1 & H1 & H2).
  destruct p as [|x]; [|discriminate].
  assert (Hr : names rs (r_id ru) ru) by (split; [exact Hin|apply same_name_keyed; reflexivity]).
  destruct (flat_run rs cfg Hg (NPrim (PMeta l (r_id ru))) (fl_ref _ _ _ _ Hr Hf) i None) with (f := fuel) (evs := @nil event) (r := r) (h := h) (pe := (Proceed, e)) (r' := r1)
    as (nx & f1 & e1 & r2 & h1 & B0 & B1 & B2 & B3); auto.
  { apply cd_meta. exact Ha. }
  assert (nx = None) as -> by tauto. apply run_none in B3. subst r2.
  destruct (mbind_split _ _ _ _ _ H2) as (b & r3 & H3 & H4). destruct b; [|destruct (mbind_split _ _ _ _ _ H4) as (y & r4 & _ & K); discriminate].
  assert (r3 = r') as ->. { destruct (debug && _)%bool; [discriminate|]. injection H4 as _ ->. reflexivity. }
  assert (A1 : perform1 debug OIsEof r1 = (Ok (ABool true), r')) by (cbn [perform1]; rewrite H3; reflexivity).
  destruct (gauge_step _ _ _ _ _ _ _ _ _ B1 A1) as (h2 & S1 & G2). exists h2. split; [exact G2|].
  assert (Hw : skipn (g_pos h1) T = []).
  { pose proof (gauged_rep _ _ _ _ _ B1) as R. destruct (rep_is_eof T E l0 debug r1 _ R) as (a & ra & ca & _ & _ & _ & _ & K). cbn [at_gauge c_pos] in K. unfold char_at in K.
    destruct (skipn (g_pos h1) T); [reflexivity|]. destruct K as (K & _). congruence. }
  inversion S1; subst; try discriminate. 2:{ match goal with K : takes_on OIsEof |- _ => destruct K end. }
  cbn [extent]. rewrite Hw. cbn [length Nat.min]. unfold look_on. rewrite read_on_0. cbn [with_mark moved_to g_pos]. eapply eased_trans; [exact B2|]. split; auto.
Qed.
End Flat.
Theorem parse_eases : forall rs cfg g id m debug fuel debug0 l0 chunks ending os an rd evs rd' r, parser_for rs cfg g id m ->
  perform debug0 os (mr_new l0 (Src chunks ending)) = (an, None, rd) ->
  parser_parse debug g fuel m rd = (Ok evs, rd') -> names rs id r -> flat rs (NDefs (r_defs r)) ->
  ub_stack (mr_ub rd') = ub_stack (mr_ub rd) /\ (ub_stack (mr_ub rd) = [] -> ub_buf (mr_ub rd) = [] -> ub_buf (mr_ub rd') = []).
Proof.
  intros rs cfg g id m debug fuel debug0 l0 chunks ending os an rd evs rd' r Hp Hr H Hn Hf.
  destruct (parser_rule _ _ _ _ _ Hp) as (r2 & Hn2 & _ & Ha). rewrite (names_unique rs _ _ _ (parser_unique _ _ _ _ _ Hp) Hn2 Hn) in Ha. clear r2 Hn2.
  destruct (gauge_run (concat chunks) ending l0 debug0 os (mr_new l0 (Src chunks ending)) g_start an rd (gauge_new _ _ _ _ (rep_new l0 chunks ending) eq_refl eq_refl) Hr) as (h & _ & _ & G).
  destruct (flat_parse debug g _ _ _ rs cfg _ r _ (parser_faithful _ _ _ _ _ Hp) Ha (proj1 Hn) Hf fuel rd h evs rd' G H) as (h' & G' & E1 & E2).
  destruct (gauged_to _ _ _ _ _ G) as (_ & _ & N3 & _ & N5). destruct (gauged_to _ _ _ _ _ G') as (_ & _ & N3' & _ & N5').
  destruct G as (b & R & _), G' as (b' & R' & _). split.
  - rewrite (rp_stack _ _ _ _ _ _ R), (rp_stack _ _ _ _ _ _ R'). cbn [at_gauge c_marks]. rewrite E1. reflexivity.
  - intros K1 K2. apply length_zero_iff_nil. rewrite <- N3'. apply E2; [apply N5; exact K1|]. rewrite N3, K2. reflexivity.
Qed.
