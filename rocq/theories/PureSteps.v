(** The count of MachineSteps.v on a text and a location (a proof device, as
    Pure.v), and the proof that the count over any reader is this one. *)
From Coq Require Import String List NArith Arith Bool Lia.
From Verif Require Import Base Ident Tokenizer Ast Lex Syntax Io Graph Machine MachineSteps SpecText SpecIo TextFacts TokRun IoFacts SpecParse Pure PureFacts.
Import ListNotations.
Open Scope nat_scope.

Definition pupon {A} (m : P A) (k : A -> pst -> nat) : pst -> nat := fun r =>
  match m r with (Ok a, r') => k a r' | _ => 0 end.
Notation "'uponp' x := m 'in' k" := (pupon m (fun x => k))
  (at level 200, x pattern, m at level 100, k at level 200).
Definition pnothing : pst -> nat := fun _ => 0.
Definition pboth (a b : pst -> nat) : pst -> nat := fun r => a r + b r.

Fixpoint prep_steps (sub : list event -> P (prospect * list event)) (cnt : list event -> pst -> nat)
    (fuel : nat) (min max i : N) (temp : list event) : pst -> nat :=
  match fuel with
  | O => pnothing
  | S f =>
      if N.ltb i max then
        uponp s := pget in
        pboth (cnt temp)
          (uponp (p, temp) := sub temp in
           match p with
           | NotThisWay _ => pnothing
           | Proceed =>
               uponp loc' := ploc in
               if (N.eqb max u32_max && loc_eqb loc' (p_at s))%bool then pnothing
               else prep_steps sub cnt f min max (i + 1)%N temp
           end)
      else pnothing
  end.
Fixpoint por_steps (sub : nat -> P (prospect * list event)) (cnt : nat -> pst -> nat)
    (subs : list nat) : pst -> nat :=
  match subs with
  | [] => pnothing
  | a :: rest =>
      uponp s := pget in
      pboth (cnt a)
        (uponp (p, _) := sub a in
         match p with
         | Proceed => pnothing
         | NotThisWay _ => uponp _ := pput s in por_steps sub cnt rest
         end)
  end.
Definition pexcept_steps (sub : nat -> list event -> P (prospect * list event))
    (cnt : nat -> list event -> pst -> nat) (cnt0 : nat -> list event -> pst -> nat)
    (fuel factor exc : nat) : pst -> nat :=
  uponp s := pget in
  pboth (cnt factor [])
    (uponp (p, _) := sub factor [] in
     match p with
     | NotThisWay _ => pnothing
     | Proceed =>
         uponp s' := pget in
         if Nat.ltb (length (between s s')) fuel then fun _ => cnt0 exc [] (Pst (between s s') (p_at s))
         else pnothing
     end).
Section Machine.
Variable g : graph.
Definition pspecial_steps (ending : option error) (cnt : nat -> list event -> pst -> nat) (fuel : nat) (ins : instr)
    (sc : scanner) (events : list event) : pst -> nat :=
  uponp rc := pspecial_scan ending fuel sc (i_def ins) in
  match rc with
  | RForward id => match g_label g id with Some next => cnt next events | None => pnothing end
  | _ => pnothing
  end.
Fixpoint psteps (fuel : nat) (ending : option error) (next : option nat) (events : list event) : pst -> nat :=
  match fuel with
  | O => pnothing
  | S f =>
      match next with
      | None => pnothing
      | Some addr =>
          match nth_error (g_instrs g) addr with
          | None => pnothing
          | Some ins =>
              let sub := fun en a evs => prun g f en (Some a) evs in
              let cnt := fun en a evs => psteps f en (Some a) evs in
              let continue (pe : prospect * list event) :=
                let '(p, evs) := pe in
                match p with
                | NotThisWay _ => pnothing
                | Proceed => psteps f ending (i_next ins) evs
                end in
              pboth (fun _ => 1)
              match i_step ins with
              | StRepetition min max s =>
                  pboth (prep_steps (sub ending s) (cnt ending s) f min max 0%N [])
                    (uponp o := prep_loop (sub ending s) f min max 0%N [] in
                     match o with
                     | inl _ => pnothing
                     | inr temp => psteps f ending (i_next ins) (events ++ temp)
                     end)
              | StOr subs =>
                  pboth (por_steps (fun s => sub ending s []) (fun s => cnt ending s []) subs)
                    (uponp o := por_loop (fun s => sub ending s []) subs in
                     match o with
                     | inl _ => pnothing
                     | inr temp => psteps f ending (i_next ins) (events ++ temp)
                     end)
              | StAlias id =>
                  match g_label g id with
                  | None => pnothing
                  | Some address =>
                      match g_canonical g id with
                      | None => pnothing
                      | Some name =>
                          uponp l := ploc in
                          pboth (cnt ending address [EvBegin (i_def ins) l name])
                            (uponp (p, temp) := sub ending address [EvBegin (i_def ins) l name] in
                             match p with
                             | NotThisWay _ => pnothing
                             | Proceed =>
                                 uponp l := ploc in
                                 psteps f ending (i_next ins) (events ++ temp ++ [EvEnd (i_def ins) l name])
                             end)
                      end
                  end
              | StTerminal s =>
                  uponp pe := pterminal_step g ending addr ins s events in continue pe
              | StSpecial sc =>
                  pboth (pspecial_steps ending (cnt ending) f ins sc events)
                    (uponp pe := pspecial_step g (sub ending) ending f addr ins sc events in continue pe)
              | StEmpty => continue (Proceed, events)
              | StExcept factor exc =>
                  pboth (pexcept_steps (sub ending) (cnt ending) (cnt None) f factor exc)
                    (uponp pe := pexcept_scan g sub ending f addr factor exc events in continue pe)
              end
          end
      end
  end.
End Machine.

Lemma pupon_ok : forall {A} (m : P A) k r a r', m r = (Ok a, r') -> pupon m k r = k a r'.
Proof. intros. unfold pupon. rewrite H. reflexivity. Qed.

Section Sim.
Variable debug : bool.
Variable T : str.
Variable E : option error.
Variable l0 : location.
Notation rep := (rep T E l0).
Notation st := (st T l0).
Notation simc := (simc T E l0).

(** From any reader with at least the marks [ctx]: the same number. *)
Definition simn (ctx : list (N * nat)) (m : mreader -> nat) (f : pst -> nat) : Prop :=
  forall r c, rep r c -> among ctx (c_marks c) -> m r = f (st (c_pos c)).

Lemma simn_weak : forall ctx ctx' m f, among ctx ctx' -> simn ctx m f -> simn ctx' m f.
Proof. intros ctx ctx' m f H S r c R O. apply S; [exact R|]. eapply among_trans; eauto. Qed.
Lemma simn_nothing : forall ctx, simn ctx nothing pnothing.
Proof. intros ctx r c R O. reflexivity. Qed.
Lemma simn_both : forall ctx a b a' b', simn ctx a a' -> simn ctx b b' -> simn ctx (both a b) (pboth a' b').
Proof. intros ctx a b a' b' H1 H2 r c R O. unfold both, pboth. rewrite (H1 r c R O), (H2 r c R O). reflexivity. Qed.
Lemma simn_one : forall ctx, simn ctx (fun _ => 1) (fun _ => 1).
Proof. intros ctx r c R O. reflexivity. Qed.
Lemma simn_upon : forall {A} ctx mid (m : M A) f k h, simc ctx mid m f -> (forall a, simn mid (k a) (h a)) ->
  simn ctx (upon m k) (pupon f h).
Proof.
  intros A ctx mid m f k h S1 S2 r c R O. destruct (S1 r c R O) as (r1 & c1 & K1 & K2 & K3 & K4).
  unfold upon, pupon. rewrite K1. destruct (f (st (c_pos c))) as (x & s1) eqn:Ef. cbn [fst snd] in *. subst s1.
  destruct x as [a|e|p|]; try reflexivity. exact (S2 a r1 c1 K2 K4).
Qed.
Lemma simn_mark : forall ctx k h, (forall m q, q <= length T -> simn ((m, q) :: ctx) (k m) (h (st q))) ->
  simn ctx (upon (m_mark debug) k) (pupon pget h).
Proof.
  intros ctx k h S r c R O. destruct (rep_mark' T E l0 debug r c R) as (m & r1 & K1 & K2 & K3 & K4).
  unfold upon. rewrite K1. unfold pupon, pget. apply (S m (c_pos c) (rep_bound _ _ _ _ _ R) r1 _ K3). cbn. apply am_keep. exact O.
Qed.
Lemma simn_reset : forall ctx m q k h, (forall n, simn ctx (k n) (h tt)) ->
  simn ((m, q) :: ctx) (upon (m_reset m) k) (pupon (pput (st q)) h).
Proof.
  intros ctx m q k h S r c R O. destruct (reset_known _ _ _ _ _ _ _ _ R O) as (n & r1 & c1 & K1 & K2 & K3 & K4 & _).
  unfold upon. rewrite K1. unfold pupon, pput. rewrite <- K3. apply S; auto.
Qed.
Lemma simn_unmark : forall ctx m q k h, simn ctx (k tt) h -> simn ((m, q) :: ctx) (upon (m_unmark m) k) h.
Proof.
  intros ctx m q k h S r c R O. destruct (unmark_known _ _ _ _ _ _ _ _ R O) as (r1 & c1 & K1 & K2 & K3 & K4).
  unfold upon. rewrite K1. rewrite <- K3. apply S; auto.
Qed.
(** A mark put right where the location was taken. *)
Lemma simn_here : forall ctx k h, (forall m q, q <= length T -> simn ((m, q) :: ctx) (k (p_at (st q)) m) (h (st q))) ->
  simn ctx (upon m_location (fun l => upon (m_mark debug) (k l))) (pupon pget h).
Proof.
  intros ctx k h S r c R O. assert (L : m_location r = (Ok (p_at (st (c_pos c))), r)).
  { destruct R as (b & R). unfold m_location. rewrite (rp_loc _ _ _ _ _ _ R). reflexivity. }
  destruct (rep_mark' T E l0 debug r c R) as (m & r1 & K1 & K2 & K3 & K4).
  unfold upon. rewrite L, K1. unfold pupon, pget. apply (S m (c_pos c) (rep_bound _ _ _ _ _ R) r1 _ K3). cbn. apply am_keep. exact O.
Qed.
Lemma simn_rep : forall ctx (sub : list event -> M (prospect * list event)) psub cnt pcnt fuel mn mx i temp,
  (forall ctx evs, simc ctx ctx (sub evs) (psub evs)) -> (forall ctx evs, simn ctx (cnt evs) (pcnt evs)) ->
  simn ctx (rep_steps debug sub cnt fuel mn mx i temp) (prep_steps psub pcnt fuel mn mx i temp).
Proof.
  intros ctx sub psub cnt pcnt fuel mn mx i temp Hs Hc. revert ctx i temp. induction fuel as [|f IH]; intros ctx i temp; [apply simn_nothing|].
  cbn [rep_steps prep_steps]. destruct (N.ltb i mx); [|apply simn_nothing].
  apply (simn_here ctx (fun loc mark => both (cnt temp) (upon! (p, temp0) := sub temp in match p with NotThisWay _ => nothing
     | Proceed => upon! loc' := m_location in if (N.eqb mx u32_max && loc_eqb loc' loc)%bool then nothing else rep_steps debug sub cnt f mn mx (i + 1)%N temp0 end))).
  intros m q Hq. apply simn_both; [apply Hc|]. eapply simn_upon; [apply Hs|]. intros ([|e] & t); [|apply simn_nothing].
  eapply simn_upon; [apply simc_location|]. intros l. destruct (_ && _)%bool; [apply simn_nothing|apply IH].
Qed.
Lemma simn_or : forall ctx (sub : nat -> M (prospect * list event)) psub cnt pcnt subs,
  (forall ctx a, simc ctx ctx (sub a) (psub a)) -> (forall ctx a, simn ctx (cnt a) (pcnt a)) ->
  simn ctx (or_steps debug sub cnt subs) (por_steps psub pcnt subs).
Proof.
  intros ctx sub psub cnt pcnt subs Hs Hc. induction subs as [|a subs IH]; [apply simn_nothing|]. cbn [or_steps por_steps].
  apply simn_mark. intros m q Hq. apply simn_both; [apply Hc|]. eapply simn_upon; [apply Hs|]. intros ([|e] & t); [apply simn_nothing|].
  apply simn_reset. intros _. exact IH.
Qed.
Lemma simn_special : forall ctx g cnt pcnt fuel ins sc events, (forall ctx a evs, simn ctx (cnt a evs) (pcnt a evs)) ->
  simn ctx (special_steps debug g cnt fuel ins sc events) (pspecial_steps g E pcnt fuel ins sc events).
Proof.
  intros ctx g cnt pcnt fuel ins sc events Hc. unfold special_steps, pspecial_steps.
  assert (H : simn ctx (upon! mark := m_mark debug in upon! rc := special_scan debug fuel sc (i_def ins) in
      match rc with RForward id => match g_label g id with Some next => upon! _ := m_unmark mark in cnt next events | None => nothing end | _ => nothing end)
    (uponp _ := pget in uponp rc := pspecial_scan E fuel sc (i_def ins) in
      match rc with RForward id => match g_label g id with Some next => pcnt next events | None => pnothing end | _ => pnothing end)).
  2:{ exact H. }
  apply simn_mark. intros m q Hq. eapply simn_upon; [apply simc_special_scan; discriminate|]. intros [evts| |id]; try apply simn_nothing.
  destruct (g_label g id) as [next|]; [|apply simn_nothing]. apply simn_unmark. apply Hc.
Qed.
End Sim.

Lemma simn_except : forall debug sub psub cnt pcnt fuel factor exc,
  (forall T E l0 ctx a evs, simc T E l0 ctx ctx (sub a evs) (psub E a evs)) ->
  (forall T E l0 ctx a evs, simn T E l0 ctx (cnt a evs) (pcnt E a evs)) ->
  forall T E l0 ctx, simn T E l0 ctx (except_steps debug sub cnt fuel factor exc)
    (pexcept_steps (psub E) (pcnt E) (pcnt None) fuel factor exc).
Proof.
  intros debug sub psub cnt pcnt fuel factor exc Hs Hc T E l0 ctx. unfold except_steps, pexcept_steps.
  apply (simn_here debug T E l0 ctx (fun begin mark => both (cnt factor [])
    (upon! (p, _) := sub factor [] in match p with NotThisWay _ => nothing | Proceed =>
         upon! end_ := m_location in upon! _ := m_reset mark in upon! _ := m_mark debug in
         upon! buffer := capture_loop debug fuel end_ in upon! l := m_location in
         if (debug && negb (loc_eqb end_ l))%bool then nothing else fun _ => cnt exc [] (mr_of_text begin buffer) end))).
  intros m q Hq. apply simn_both; [apply Hc|]. eapply simn_upon; [apply Hs|]. intros ([|e] & t); [|apply simn_nothing].
  intros r c R O. assert (L : m_location r = (Ok (IoFacts.loc_at T l0 (c_pos c)), r)).
  { destruct R as (b & R). unfold m_location. rewrite (rp_loc _ _ _ _ _ _ R). reflexivity. }
  unfold upon at 1. rewrite L.
  assert (Lq : q <= c_pos c) by (eapply mark_below; eauto).
  destruct (reset_known _ _ _ _ _ _ _ _ R O) as (n & r1 & c1 & K1 & K2 & K3 & K4 & _). unfold upon at 1. rewrite K1.
  destruct (rep_mark' T E l0 debug r1 c1 K2) as (m2 & r2 & J1 & J2 & J3 & _). unfold upon at 1. rewrite J1. rewrite K3 in J3.
  destruct (capture_ok debug T E l0 fuel (c_pos c) r2 _ J3 ltac:(discriminate) Lq (rep_bound _ _ _ _ _ R)) as (r3 & c3 & I1 & I2 & I3 & I4).
  cbn [c_pos c_marks] in I2, I3, I4. unfold upon at 1. rewrite I4.
  unfold pupon, pget. rewrite between_st by (auto; apply (rep_bound _ _ _ _ _ R)).
  set (buf := firstn (c_pos c - q) (skipn q T)) in *.
  assert (Hlen : length buf = c_pos c - q). { unfold buf. rewrite firstn_length, skipn_length. pose proof (rep_bound _ _ _ _ _ R). lia. }
  rewrite Hlen. destruct (Nat.ltb_spec (c_pos c - q) fuel) as [Hf|Hf]; [|reflexivity].
  assert (L3 : m_location r3 = (Ok (IoFacts.loc_at T l0 (c_pos c)), r3)).
  { rewrite <- I3. destruct I1 as (b & I1). unfold m_location. rewrite (rp_loc _ _ _ _ _ _ I1). reflexivity. }
  unfold upon. rewrite L3, loc_eqb_refl, andb_false_r.
  pose proof (rep_new (p_at (st T l0 q)) [buf] None) as R0. cbn [concat] in R0. rewrite app_nil_r in R0.
  exact (Hc buf None (p_at (st T l0 q)) [] exc [] _ _ R0 (am_nil _)).
Qed.

Theorem simn_steps : forall debug g fuel T E l0 ctx next events,
  simn T E l0 ctx (ticks debug g fuel next events) (psteps g fuel E next events).
Proof.
  intros debug g. induction fuel as [|f IH]; intros T E l0 ctx next events; [apply simn_nothing|].
  cbn [ticks psteps]. destruct next as [addr|]; [|apply simn_nothing].
  destruct (nth_error (g_instrs g) addr) as [ins|]; [|apply simn_nothing].
  assert (Hc : forall ctx pe, simn T E l0 ctx
     (let '(p, evs) := pe in match p with NotThisWay _ => nothing | Proceed => ticks debug g f (i_next ins) evs end)
     (let '(p, evs) := pe in match p with NotThisWay _ => pnothing | Proceed => psteps g f E (i_next ins) evs end)).
  { intros ctx' ([|e] & evs); [apply IH|apply simn_nothing]. }
  apply simn_both; [apply simn_one|]. destruct (i_step ins) as [mn mx s|subs|s|sc| |fa ex|id].
  - apply simn_both; [apply simn_rep; intros; [apply simc_run|apply IH]|].
    eapply simn_upon; [apply simc_rep_loop; intros; apply simc_run|]. intros [e|temp]; [apply simn_nothing|apply IH].
  - apply simn_both; [apply simn_or; intros; [apply simc_run|apply IH]|].
    eapply simn_upon; [apply simc_or_loop; intros; apply simc_run|]. intros [es|temp]; [apply simn_nothing|apply IH].
  - eapply simn_upon; [apply simc_terminal|]. apply Hc.
  - apply simn_both; [apply simn_special; intros; apply IH|].
    eapply simn_upon; [apply simc_special_step; intros; apply simc_run|]. apply Hc.
  - apply IH.
  - apply simn_both; [apply (simn_except debug (fun a evs => run debug g f (Some a) evs) (fun en a evs => prun g f en (Some a) evs)
      (fun a evs => ticks debug g f (Some a) evs) (fun en a evs => psteps g f en (Some a) evs)); intros; [apply simc_run|apply IH]|].
    eapply simn_upon; [apply (simc_except debug g (fun a evs => run debug g f (Some a) evs) (fun en a evs => prun g f en (Some a) evs)); intros; apply simc_run|]. apply Hc.
  - destruct (g_label g id) as [a|]; [|apply simn_nothing]. destruct (g_canonical g id) as [nm|]; [|apply simn_nothing].
    eapply simn_upon; [apply simc_location|]. intros l. apply simn_both; [apply IH|]. eapply simn_upon; [apply simc_run|]. intros ([|e] & temp); [|apply simn_nothing].
    eapply simn_upon; [apply simc_location|]. intros l'. apply IH.
Qed.
