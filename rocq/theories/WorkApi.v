(** The number of instructions of a parse, through the API. *)
From Coq Require Import String List NArith Arith Bool Lia.
From Verif Require Import Base Ident Tokenizer Ast Lex Syntax Io Graph Machine MachineSteps SpecText SpecIo SpecSyntax TextFacts TokRun IoFacts SyntaxFacts SpecParse SpecMachine SpecWork Pure PureFacts PureSteps ParseFacts CodeFacts RunFacts RunComplete EvFacts MachineFacts WorkFacts.
Import ListNotations.
Open Scope nat_scope.

(** ** The fuel is no part of the count. *)
Definition fin {A} (a : P A) (x y : pst -> nat) : Prop := forall s, fst (a s) <> OutOfFuel -> y s = x s.
Lemma fin_refl : forall {A} (a : P A) x, fin a x x.
Proof. intros A a x s _. reflexivity. Qed.
Lemma fin_fuel : forall {A} x y, fin (@pno_fuel A) x y.
Proof. intros A x y s H. contradiction H. reflexivity. Qed.
Lemma fin_both : forall {A} (a : P A) x y x' y', fin a x y -> fin a x' y' -> fin a (pboth x x') (pboth y y').
Proof. intros A a x y x' y' H1 H2 s H. unfold pboth. rewrite H1, H2 by exact H. reflexivity. Qed.
Lemma fin_first : forall {A B} (m : P A) (k : A -> P B) x y, fin m x y -> fin (pbind m k) x y.
Proof. intros A B m k x y H s Hs. apply H. intros E. apply Hs. unfold pbind. destruct (m s) as ([] & s'); cbn in E; try discriminate. reflexivity. Qed.
Lemma fin_upon : forall {A B} (m m' : P A) (k : A -> P B) x y, finer m m' -> (forall a, fin (k a) (x a) (y a)) ->
  fin (pbind m k) (pupon m x) (pupon m' y).
Proof.
  intros A B m m' k x y Hm Hk s Hs. unfold pbind in Hs. unfold pupon. specialize (Hm s). destruct (m s) as (r & s') eqn:E. destruct r as [a|e|p|].
  - rewrite Hm by discriminate. apply Hk. exact Hs.
  - rewrite Hm by discriminate. reflexivity.
  - rewrite Hm by discriminate. reflexivity.
  - contradiction Hs. reflexivity.
Qed.
Lemma fin_rep : forall sub sub' c c' mn mx f f', f <= f' -> (forall evs, finer (sub evs) (sub' evs)) -> (forall evs, fin (sub evs) (c evs) (c' evs)) ->
  forall i temp, fin (prep_loop sub f mn mx i temp) (prep_steps sub c f mn mx i temp) (prep_steps sub' c' f' mn mx i temp).
Proof.
  intros sub sub' c c' mn mx. induction f as [|f IH]; intros f' Hf Hs Hc i temp; [apply fin_fuel|]. destruct f' as [|f']; [lia|].
  cbn [prep_loop prep_steps]. destruct (N.ltb i mx); [|apply fin_refl]. apply fin_upon; [apply finer_refl|]. intros s.
  apply fin_both; [apply fin_first; apply Hc|]. apply fin_upon; [apply Hs|]. intros ([|e] & t); [|destruct (N.ltb i mn); apply fin_refl].
  apply fin_upon; [apply finer_refl|]. intros l. destruct (_ && _)%bool; [apply fin_refl|]. apply IH; auto. lia.
Qed.
Lemma fin_or : forall sub sub' c c' subs, (forall a, finer (sub a) (sub' a)) -> (forall a, fin (sub a) (c a) (c' a)) ->
  fin (por_loop sub subs) (por_steps sub c subs) (por_steps sub' c' subs).
Proof.
  intros sub sub' c c' subs Hs Hc. induction subs as [|a subs IH]; [apply fin_refl|]. cbn [por_loop por_steps].
  apply fin_upon; [apply finer_refl|]. intros s. apply fin_both; [apply fin_first; apply Hc|]. apply fin_upon; [apply Hs|].
  intros ([|e] & t); [apply fin_refl|]. apply fin_upon; [apply finer_refl|]. intros _. apply fin_first. exact IH.
Qed.
Lemma fin_steps : forall g f f' E next evs, f <= f' -> fin (prun g f E next evs) (psteps g f E next evs) (psteps g f' E next evs).
Proof.
  intros g. induction f as [|f IH]; intros f' E next evs Hf; [apply fin_fuel|]. destruct f' as [|f']; [lia|].
  assert (Hf' : f <= f') by lia. clear Hf.
  cbn [prun psteps]. destruct next as [addr|]; [|apply fin_refl]. destruct (nth_error (g_instrs g) addr) as [ins|]; [|apply fin_refl].
  assert (Hr : forall E next evs, finer (prun g f E next evs) (prun g f' E next evs)) by (intros; apply finer_run; exact Hf').
  assert (Hc : forall pe, fin
     (let '(p, evs) := pe in match p with NotThisWay e => pret (NotThisWay e, evs) | Proceed => prun g f E (i_next ins) evs end)
     (let '(p, evs) := pe in match p with NotThisWay _ => pnothing | Proceed => psteps g f E (i_next ins) evs end)
     (let '(p, evs) := pe in match p with NotThisWay _ => pnothing | Proceed => psteps g f' E (i_next ins) evs end)).
  { intros ([|e] & ev); [apply IH; exact Hf'|apply fin_refl]. }
  apply fin_both; [apply fin_refl|].
  destruct (i_step ins) as [mn mx s|subs|s|sc| |fa ex|id].
  - apply fin_both.
    + apply fin_first. apply fin_rep; auto.
    + apply fin_upon; [apply finer_rep; auto|]. intros [e|t]; [apply fin_refl|apply IH; exact Hf'].
  - apply fin_both.
    + apply fin_first. apply fin_or; auto.
    + apply fin_upon; [apply finer_or; auto|]. intros [es|t]; [apply fin_refl|apply IH; exact Hf'].
  - apply fin_upon; [apply finer_refl|exact Hc].
  - apply fin_both.
    + apply fin_first. unfold pspecial_step, pspecial_steps.
      change (fin (letp s := pget in
         letp rc := pspecial_scan E f sc (i_def ins) in
         match rc with
         | RMatch evts => pret (Proceed, evs ++ evts)
         | RForward id => match g_label g id with
            | Some next => letp (_, events) := prun g f E (Some next) evs in pret (Proceed, events)
            | None => letp _ := pput s in letp l := ploc in pfail (Error_ l (MNoSuchForward id (i_symbol ins) (i_def ins))) end
         | RUnmatch => letp _ := pput s in letp e := perr_expected E g (Some addr) in pret (NotThisWay e, evs)
         end)
        (uponp _ := pget in uponp rc := pspecial_scan E f sc (i_def ins) in
           match rc with RForward id => match g_label g id with Some next => psteps g f E (Some next) evs | None => pnothing end | _ => pnothing end)
        (uponp _ := pget in uponp rc := pspecial_scan E f' sc (i_def ins) in
           match rc with RForward id => match g_label g id with Some next => psteps g f' E (Some next) evs | None => pnothing end | _ => pnothing end)).
      apply fin_upon; [apply finer_refl|]. intros s0. apply fin_upon; [apply finer_scan; exact Hf'|]. intros [e| |id]; try apply fin_refl.
      destruct (g_label g id); [|apply fin_refl]. apply fin_first. apply IH. exact Hf'.
    + apply fin_upon; [|exact Hc]. unfold pspecial_step. apply finer_bind; [apply finer_refl|]. intros s0.
      apply finer_bind; [apply finer_scan; exact Hf'|]. intros [e| |id]; try apply finer_refl.
      destruct (g_label g id); [|apply finer_refl]. apply finer_bind; [apply Hr|]. intros (p & e). apply finer_refl.
  - apply IH. exact Hf'.
  - apply fin_both.
    + apply fin_first. unfold pexcept_scan, pexcept_steps. apply fin_upon; [apply finer_refl|]. intros s0.
      apply fin_both; [apply fin_first; apply IH; exact Hf'|]. apply fin_upon; [apply Hr|]. intros ([|e] & t); [|apply fin_refl].
      apply fin_upon; [apply finer_refl|]. intros s1. cbv zeta.
      destruct (Nat.ltb_spec (length (between s0 s1)) f) as [H|H].
      2:{ intros s Hs. exfalso. apply Hs. reflexivity. }
      replace (Nat.ltb (length (between s0 s1)) f') with true by (symmetry; apply Nat.ltb_lt; lia).
      intros s Hs. apply IH; [exact Hf'|]. intros Z. apply Hs. unfold pbind at 1 2.
      destruct (prun g f None (Some ex) [] (Pst (between s0 s1) (p_at s0))) as (x & s2). cbn in Z. subst x. reflexivity.
    + apply fin_upon; [|exact Hc].
      unfold pexcept_scan. apply finer_bind; [apply finer_refl|]. intros s0.
      apply finer_bind; [apply Hr|]. intros ([|e] & t); [|apply finer_refl].
      apply finer_bind; [apply finer_refl|]. intros s1. cbv zeta.
      destruct (Nat.ltb_spec (length (between s0 s1)) f) as [H|H].
      2:{ intros s Hs. exfalso. apply Hs. reflexivity. }
      replace (Nat.ltb (length (between s0 s1)) f') with true by (symmetry; apply Nat.ltb_lt; lia).
      intros s Hs.
      assert (Ht : finer (letp (p, _) := prun g f None (Some ex) [] in match p with Proceed => peof None | NotThisWay _ => pret false end)
                         (letp (p, _) := prun g f' None (Some ex) [] in match p with Proceed => peof None | NotThisWay _ => pret false end)).
      { apply finer_bind; [apply Hr|]. intros (p & t2). apply finer_refl. }
      specialize (Ht (Pst (between s0 s1) (p_at s0))).
      revert Ht Hs. set (y := (letp (p, _) := prun g f None (Some ex) [] in _) _). set (y' := (letp (p, _) := prun g f' None (Some ex) [] in _) _).
      intros Ht Hs. destruct (fst y) as [b|e|p|] eqn:Ex.
      4:{ exfalso. apply Hs. reflexivity. }
      all: rewrite Ht, Ex by discriminate; reflexivity.
  - destruct (g_label g id); [|apply fin_refl]. destruct (g_canonical g id); [|apply fin_refl].
    apply fin_upon; [apply finer_refl|]. intros l0. apply fin_both; [apply fin_first; apply IH; exact Hf'|]. apply fin_upon; [apply Hr|].
    intros ([|e] & t); [|apply fin_refl]. apply fin_upon; [apply finer_refl|]. intros l1. apply IH. exact Hf'.
Qed.

(** ** The work is determined. *)
Section Fun.
Variable rules : list rule.
Variable cfg : config.
Hypothesis Hn : no_repeat rules.
Hypothesis Hd : no_dollar rules.
Notation ev := (ev rules cfg).
Notation work := (work rules cfg).
Lemma known_fwd : forall id s k, work (NFwd id) s k -> ~ defined rules id -> (forall r, In r rules -> ~ dollar id r) -> False.
Proof.
  intros id s k H H1 H2. inversion H; subst.
  - apply H1. match goal with R : names rules _ _ |- _ => destruct R; eexists; eauto end.
  - eapply H2; eauto.
Qed.
Ltac meet := repeat match goal with A : ev ?n ?s ?o1, B : ev ?n ?s ?o2 |- _ =>
  first [constr_eq o1 o2; fail 1 | let E := fresh in pose proof (ev_fun rules cfg Hn Hd _ _ _ A _ B) as E; try discriminate E; first [injection E as E; subst | subst o2 | subst o1]; clear B] end.
Ltac same_word :=
  repeat match goal with A : goes ?s ?w1 ?s', B : goes ?s ?w2 ?s' |- _ =>
    first [constr_eq w1 w2; fail 1 | let E := fresh in pose proof (goes_word _ _ _ _ A B) as E; subst w2; clear B] end.
Lemma work_fun : forall n s k, work n s k -> forall k', work n s k' -> k = k'.
Proof.
  intros n s k H. induction H; intros k' H'; inversion H'; subst; try reflexivity; try congruence; try lia.
  all: try (match goal with A : scanned ?c ?l ?s ?x, B : scanned ?c ?l ?s ?y |- _ =>
     let E := fresh in pose proof (scanned_fun _ _ _ _ _ A B) as E; first [discriminate E | subst; match goal with K : ~ forwarded _ |- _ => exfalso; apply K; eexists _, _; reflexivity end | injection E as <- <-] end).
  all: try (exfalso; eapply known_fwd; eassumption).
  all: try (match goal with A : names rules ?id ?r, B : names rules ?id ?r' |- _ => pose proof (names_unique _ _ _ _ Hn A B); subst r' end).
  all: try (exfalso; match goal with R : names rules _ _, K : ~ defined rules _ |- _ => apply K; destruct R; eexists; eauto end).
  all: try (exfalso; eapply (names_dollar rules Hd); eassumption).
  all: try (match goal with A : dollar ?id ?a, B : dollar ?id ?b |- _ => assert (a = b) by (eapply (dollar_unique rules Hn); eauto); subst b end).
  all: try (meet; same_word).
  all: try (match goal with K : over (Match ?s ?e) |- _ => contradiction (K s e eq_refl) end).
  all: try (match goal with K : forall x s' e, No ?a ?b ?c <> _ |- _ => contradiction (K a b c eq_refl) end).
  all: try (f_equal; auto; fail).
  all: try (f_equal; f_equal; auto; fail).
  all: try (f_equal; apply IHwork; congruence).
  all: try (exfalso; match goal with K : over _ \/ _ |- _ => destruct K as [K|(-> & ? & ? & E & ?)]; [eapply K; reflexivity|injection E as <- <-; match goal with Z : max_count = max_count -> _ |- _ => apply Z; auto end] end).
  all: auto.
Qed.
End Fun.

(** ** The API *)
Lemma steps_pure : forall debug g fuel m rd, reader rd ->
  parser_steps debug g fuel m rd = psteps g fuel (ending_of rd) (Some (mc_entry m)) [] (stand rd).
Proof.
  intros debug g fuel m rd H. destruct (reader_rep rd H) as (T & l0 & c & R). destruct (stand_rep _ _ _ _ _ R) as (Hs & _).
  unfold parser_steps. rewrite Hs. exact (simn_steps debug g fuel T _ l0 [] (Some (mc_entry m)) [] rd c R (am_nil _)).
Qed.
Lemma steps_more_fuel : forall debug g fuel fuel' m rd, reader rd -> fuel <= fuel' -> fst (parser_parse debug g fuel m rd) <> OutOfFuel ->
  parser_steps debug g fuel' m rd = parser_steps debug g fuel m rd.
Proof.
  intros debug g fuel fuel' m rd H Hle Hf. rewrite !steps_pure by exact H. apply fin_steps; [exact Hle|].
  destruct (parse_reader debug g fuel m rd H) as (A & _). rewrite A in Hf. intros E. apply Hf. unfold pmachine_parse.
  destruct (prun g fuel (ending_of rd) (Some (mc_entry m)) [] (stand rd)) as (x & s) eqn:Ex. cbn in E. subst x. rewrite (pbind_fuel _ _ _ _ Ex). reflexivity.
Qed.
Section Api.
Variable rs : list rule.
Variable cfg : config.
Lemma steps_labour : forall g id m debug rd o, parser_for rs cfg g id m -> reader rd -> ending_of rd = None ->
  means rs cfg id (stand rd) o -> exists k, labour rs cfg id (stand rd) k /\ exists f0, forall fuel, f0 <= fuel -> parser_steps debug g fuel m rd = k.
Proof.
  intros g id m debug rd o Hp Hr He (r2 & Hn2 & Ho). destruct (parser_rule _ _ _ _ _ Hp) as (r & Hn & (_ & Ha)).
  rewrite (names_unique rs _ _ _ (parser_unique _ _ _ _ _ Hp) Hn2 Hn) in Ho.
  destruct (work_run rs cfg g (parser_faithful _ _ _ _ _ Hp) _ _ _ Ho) as (k & W & C). exists k. split; [exists r; auto|].
  pose proof (cconcl_none _ _ _ _ _ _ (C (mc_entry m) None _ [] Ha)) as (f0 & Hf). exists f0. intros fuel Hle.
  rewrite steps_pure by exact Hr. rewrite He. exact (Hf fuel Hle).
Qed.
Lemma labour_fun : forall g id m s k k', parser_for rs cfg g id m -> labour rs cfg id s k -> labour rs cfg id s k' -> k = k'.
Proof.
  intros g id m s k k' Hp (r & Hn & W) (r' & Hn' & W'). rewrite (names_unique rs _ _ _ (parser_unique _ _ _ _ _ Hp) Hn' Hn) in W'.
  exact (work_fun rs cfg (parser_unique _ _ _ _ _ Hp) (proj1 (proj2 Hp)) _ _ _ W _ W').
Qed.
Lemma steps_exact : forall g id m debug fuel rd, parser_for rs cfg g id m -> reader rd -> ending_of rd = None ->
  fst (parser_parse debug g fuel m rd) <> OutOfFuel -> forall k, labour rs cfg id (stand rd) k <-> parser_steps debug g fuel m rd = k.
Proof.
  intros g id m debug fuel rd Hp Hr He Hf k.
  assert (Ho : exists o, means rs cfg id (stand rd) o).
  { pose proof (parse_sound_api rs cfg g id m debug fuel rd Hp Hr He) as K.
    destruct (fst (parser_parse debug g fuel m rd)) as [evs|e|p|]; [destruct K as (raw & K & _); eauto| | |contradiction Hf; reflexivity].
    - destruct K as [K|[K|K]]; repeat match goal with X : exists _, _ |- _ => destruct X | X : _ /\ _ |- _ => destruct X end; eauto.
    - repeat match goal with X : _ \/ _ |- _ => destruct X | X : exists _, _ |- _ => destruct X | X : _ /\ _ |- _ => destruct X end; eauto. }
  destruct Ho as (o & Ho). destruct (steps_labour g id m debug rd o Hp Hr He Ho) as (k0 & L & f0 & Hk).
  specialize (Hk (f0 + fuel) ltac:(lia)). rewrite (steps_more_fuel debug g fuel (f0 + fuel) m rd Hr ltac:(lia) Hf) in Hk. rewrite Hk. split.
  - intros L'. exact (labour_fun _ _ _ _ _ _ Hp L L').
  - intros <-. exact L.
Qed.
End Api.
