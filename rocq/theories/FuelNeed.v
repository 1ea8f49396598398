(** A run that ends, ends with as much fuel as it executes instructions and there are
    characters, and two. *)
From Coq Require Import String List NArith Arith Bool Lia.
From Verif Require Import Base Ident Tokenizer Ast Lex Syntax Io Graph Machine MachineSteps SpecText SpecIo SpecSyntax TextFacts TokRun IoFacts SyntaxFacts SpecParse SpecMachine Pure PureFacts PureSteps ParseFacts CodeFacts RunFacts RunComplete EvFacts MachineFacts WorkFacts WorkApi TotalFacts.
Import ListNotations.
Open Scope nat_scope.

Section Need.
Variable L : nat.
Definition short (s : pst) : Prop := length (p_rest s) <= L.
Definition tame {A} (m : P A) : Prop := forall s, short s -> short (snd (m s)).
Definition suf {A} (K : nat) (m m' : P A) (x : pst -> nat) : Prop :=
  forall s, short s -> fst (m s) <> OutOfFuel -> x s <= K -> m' s = m s.
Lemma tame_fwd : forall {A} (m : P A), (forall s0, fwd s0 m) -> tame m.
Proof. intros A m H s Hs. specialize (H s s (moved_refl s)). apply moved_len in H. unfold short in *. lia. Qed.
Lemma suf_refl : forall {A} K (m : P A) x, suf K m m x.
Proof. intros A K m x s _ _ _. reflexivity. Qed.
Lemma suf_fuel : forall {A} K (m' : P A) x, suf K pno_fuel m' x.
Proof. intros A K m' x s _ H _. contradiction H. reflexivity. Qed.
Lemma suf_weak : forall {A} K (m m' : P A) x y, suf K m m' x -> (forall s, x s <= y s) -> suf K m m' y.
Proof. intros A K m m' x y H Hxy s Hs Hf Hy. apply H; auto. specialize (Hxy s). lia. Qed.
Lemma suf_bind : forall {A C} K (m m' : P A) (k k' : A -> P C) x y, suf K m m' x -> tame m -> (forall a, suf K (k a) (k' a) (y a)) ->
  suf K (pbind m k) (pbind m' k') (pboth x (pupon m y)).
Proof.
  intros A C K m m' k k' x y H Ht Hk s Hs Hf Hx. unfold pboth, pupon in Hx. unfold pbind in *. specialize (H s Hs). specialize (Ht s Hs). destruct (m s) as (r & s1) eqn:E. cbn [snd] in Ht.
  assert (Hr : r <> OutOfFuel) by (intros ->; apply Hf; reflexivity).
  rewrite H; [|exact Hr|lia]. destruct r as [a|e|p|]; try reflexivity. apply Hk; [exact Ht|exact Hf|lia].
Qed.
Lemma suf_next : forall {A C} K (m : P A) (k k' : A -> P C) y, tame m -> (forall a, suf K (k a) (k' a) (y a)) ->
  suf K (pbind m k) (pbind m k') (pupon m y).
Proof.
  intros A C K m k k' y Ht Hk s Hs Hf Hx. unfold pupon in Hx. unfold pbind in *. specialize (Ht s Hs). destruct (m s) as (r & s1) eqn:E. cbn [snd] in Ht.
  destruct r as [a|e|p|]; try reflexivity. apply Hk; [exact Ht|exact Hf|lia].
Qed.
Lemma suf_get : forall {C} K (k k' : pst -> P C) y, (forall s, short s -> suf K (k s) (k' s) (y s)) -> suf K (pbind pget k) (pbind pget k') (pupon pget y).
Proof. intros C K k k' y H s Hs Hf Hx. exact (H s Hs s Hs Hf Hx). Qed.
Lemma tame_ret : forall {A} (a : A), tame (pret a).
Proof. intros A a s H. exact H. Qed.
Lemma tame_bind : forall {A C} (m : P A) (k : A -> P C), tame m -> (forall a, tame (k a)) -> tame (pbind m k).
Proof. intros A C m k H1 H2 s Hs. specialize (H1 s Hs). unfold pbind. destruct (m s) as ([a|e|p|] & s1); try exact H1. exact (H2 a s1 H1). Qed.
Lemma tame_get : forall {C} (k : pst -> P C), (forall s, short s -> tame (k s)) -> tame (pbind pget k).
Proof. intros C k H s Hs. exact (H s Hs s Hs). Qed.
Lemma tame_put : forall s, short s -> tame (pput s).
Proof. intros s H s1 _. exact H. Qed.
Lemma tame_loc : tame ploc.
Proof. intros s H. exact H. Qed.
Lemma tame_rep : forall (sub : list event -> P (prospect * list event)) mn mx f i temp, (forall evs, tame (sub evs)) -> tame (prep_loop sub f mn mx i temp).
Proof.
  intros sub mn mx f i temp Hs. revert i temp. induction f as [|f IH]; intros i temp; [intros s H; exact H|]. cbn [prep_loop]. destruct (N.ltb i mx); [|apply tame_ret].
  apply tame_get. intros s1 H1. apply tame_bind; [apply Hs|]. intros ([|e] & t).
  - apply tame_bind; [apply tame_loc|]. intros l. destruct (_ && _)%bool; [intros s2 H; exact H|apply IH].
  - destruct (N.ltb i mn); [apply tame_ret|]. apply tame_bind; [apply tame_put; exact H1|]. intros; apply tame_ret.
Qed.
Lemma tame_or : forall (sub : nat -> P (prospect * list event)) subs, (forall a, tame (sub a)) -> tame (por_loop sub subs).
Proof.
  intros sub subs Hs. induction subs as [|a r IH]; cbn [por_loop]; [apply tame_ret|]. apply tame_get. intros s1 H1. apply tame_bind; [apply Hs|].
  intros ([|e] & t); [apply tame_ret|]. apply tame_bind; [apply tame_put; exact H1|]. intros _. apply tame_bind; [exact IH|]. intros; apply tame_ret.
Qed.

Lemma suf_rep : forall K (sub sub' : list event -> P (prospect * list event)) c mn mx, (forall evs, suf K (sub evs) (sub' evs) (c evs)) -> (forall evs, tame (sub evs)) ->
  (forall evs s a s', sub evs s = (Ok a, s') -> 1 <= c evs s) ->
  forall f f' i temp s, short s -> fst (prep_loop sub f mn mx i temp s) <> OutOfFuel -> prep_steps sub c f mn mx i temp s <= K -> prep_steps sub c f mn mx i temp s < f' ->
  prep_loop sub' f' mn mx i temp s = prep_loop sub f mn mx i temp s.
Proof.
  intros K sub sub' c mn mx Hs Ht H1. induction f as [|f IH]; intros f' i temp s Hsh Hf Hk Hlt; [contradiction Hf; reflexivity|]. destruct f' as [|f']; [lia|].
  cbn [prep_loop prep_steps] in *. destruct (N.ltb i mx); [|reflexivity]. cbv [pbind pupon pboth pget ploc pput] in *.
  specialize (Hs temp s Hsh). specialize (Ht temp s Hsh). specialize (H1 temp s). destruct (sub temp s) as (r & s1) eqn:E. cbn [fst snd] in *.
  assert (Hr : r <> OutOfFuel) by (intros ->; apply Hf; reflexivity). rewrite Hs; [|exact Hr|lia]. destruct r as [(p & t)|e|p|]; try reflexivity.
  specialize (H1 _ _ eq_refl). destruct p; [|reflexivity]. destruct (N.eqb mx u32_max && loc_eqb (p_at s1) (p_at s))%bool; [reflexivity|].
  apply IH; auto; lia.
Qed.
Lemma suf_or : forall K (sub sub' : nat -> P (prospect * list event)) c subs, (forall a, suf K (sub a) (sub' a) (c a)) -> (forall a, tame (sub a)) ->
  suf K (por_loop sub subs) (por_loop sub' subs) (por_steps sub c subs).
Proof.
  intros K sub sub' c subs Hs Ht. induction subs as [|a r IH]; [apply suf_refl|]. cbn [por_loop por_steps]. apply suf_get. intros s1 H1.
  apply suf_bind; [apply Hs|apply Ht|]. intros ([|e] & t); [apply suf_refl|]. apply suf_next; [apply tame_put; exact H1|]. intros _.
  eapply suf_weak; [apply suf_bind with (x := por_steps sub c r) (y := fun _ => pnothing); [exact IH|apply tame_or; exact Ht|intros; apply suf_refl]|].
  intros s. unfold pboth, pupon, pnothing. destruct (por_loop sub r s) as ([o|e0|p|] & s2); cbn; lia.
Qed.
Lemma chars_enough : forall E pred max f f' n s, fst (pchars_loop E f pred max n s) <> OutOfFuel -> length (p_rest s) < f' -> pchars_loop E f' pred max n s = pchars_loop E f pred max n s.
Proof.
  intros E pred max. induction f as [|f IH]; intros f' n s Hf Hl; [contradiction Hf; reflexivity|]. destruct f' as [|f']; [lia|]. cbn [pchars_loop] in *.
  destruct (match max with Some m => _ | None => _ end); [|reflexivity]. cbv [pbind pget pread] in *. destruct (p_rest s) as [|c w] eqn:Er; [destruct E; reflexivity|]. destruct (negb (pred c)); [reflexivity|].
  rewrite IH.
  - reflexivity.
  - intros Z. apply Hf. destruct (pchars_loop E f pred max (n + 1) (move 1 s)) as (x & s2). cbn in Z. subst x. reflexivity.
  - unfold move. cbn [p_rest]. rewrite Er. cbn [skipn length] in *. lia.
Qed.
Lemma scan_enough : forall K E f f' sc def x, L < f' -> suf K (pspecial_scan E f sc def) (pspecial_scan E f' sc def) x.
Proof.
  intros K E f f' [c|pred mn mx|re fi|sy pr] def x Hf; try apply suf_refl. intros s Hs Hne _. cbn [pspecial_scan] in *. unfold pchars_scan in *.
  cbv [pbind pget ploc] in *.
  rewrite (chars_enough E pred mx f f' 0%N s).
  - reflexivity.
  - intros Z. apply Hne. destruct (pchars_loop E f pred mx 0%N s) as (y & s2). cbn in Z. subst y. reflexivity.
  - unfold short in Hs. lia.
Qed.
Lemma tame_scan : forall E f sc def, tame (pspecial_scan E f sc def).
Proof. intros. apply tame_fwd. intros. apply fwd_scan. Qed.
Lemma tame_run : forall g f E next evs, tame (prun g f E next evs).
Proof. intros. apply tame_fwd. intros. apply fwd_run. Qed.
Lemma tame_expected : forall E g i, tame (perr_expected E g i).
Proof. intros. apply tame_fwd. intros. apply fwd_expected. Qed.
Lemma between_short : forall s s1, short s -> length (between s s1) <= L.
Proof. intros s s1 H. unfold between. pose proof (firstn_le_length (length (p_rest s) - length (p_rest s1)) (p_rest s)). unfold short in H. lia. Qed.

Theorem need_run : forall g f K f' E next evs, K + L + 2 <= f' -> suf K (prun g f E next evs) (prun g f' E next evs) (psteps g f E next evs).
Proof.
  intros g. induction f as [|f IH]; intros K f' E next evs Hf; [apply suf_fuel|]. destruct f' as [|f']; [lia|].
  destruct next as [addr|]; [|apply suf_refl]. cbn [prun psteps]. destruct (nth_error (g_instrs g) addr) as [ins|] eqn:Ei; [|apply suf_refl].
  destruct K as [|K]. { intros s _ _ H. unfold pboth in H. lia. }
  assert (Hf' : K + L + 2 <= f') by lia.
  match goal with |- suf _ ?m ?m' (pboth _ ?x) => assert (G : suf K m m' x); [|intros s Hs Hne Hx; apply G; auto; unfold pboth in Hx; unfold pboth; lia] end.
  assert (Hc : forall pe, suf K
     (let '(p, evs) := pe in match p with NotThisWay e => pret (NotThisWay e, evs) | Proceed => prun g f E (i_next ins) evs end)
     (let '(p, evs) := pe in match p with NotThisWay e => pret (NotThisWay e, evs) | Proceed => prun g f' E (i_next ins) evs end)
     (let '(p, evs) := pe in match p with NotThisWay _ => pnothing | Proceed => psteps g f E (i_next ins) evs end)).
  { intros ([|e] & ev); [apply IH; exact Hf'|apply suf_refl]. }
  assert (Hone : forall a evs s x s', prun g f E (Some a) evs s = (Ok x, s') -> 1 <= psteps g f E (Some a) evs s).
  { intros a evs' s x s' H. destruct f as [|f0]; [discriminate|]. cbn [prun psteps] in *. destruct (nth_error (g_instrs g) a); [|discriminate]. unfold pboth. lia. }
  destruct (i_step ins) as [mn mx s|subs|s|sc| |fa ex|id].
  - apply suf_bind.
    + intros s1 Hs Hne Hx. apply suf_rep with (K := K) (c := fun evs => psteps g f E (Some s) evs); [intros; apply IH; exact Hf'|intros; apply tame_run|intros; eapply Hone; eauto|exact Hs|exact Hne|exact Hx|]. eapply Nat.le_lt_trans; [exact Hx|lia].
    + apply tame_rep. intros; apply tame_run.
    + intros [e|t]; [apply suf_refl|apply IH; exact Hf'].
  - apply suf_bind.
    + apply suf_or; [intros; apply IH; exact Hf'|intros; apply tame_run].
    + apply tame_or. intros; apply tame_run.
    + intros [es|t]; [apply suf_refl|apply IH; exact Hf'].
  - apply suf_next; [|exact Hc]. apply tame_fwd. intros s0. unfold pterminal_step. apply fwd_bind; [apply fwd_prefix|]. intros [|].
    + apply fwd_bind; [intros s1 H; exact H|]. intros l. apply fwd_bind; [apply fwd_skip|]. intros; apply fwd_ret.
    + apply fwd_bind; [apply fwd_expected|]. intros; apply fwd_ret.
  - apply suf_bind.
    + unfold pspecial_step, pspecial_steps.
      match goal with |- suf _ _ _ ?x => change x with (pupon pget (fun _ : pst => x)) end.
      apply suf_get. intros s1 H1. eapply suf_weak.
      * apply suf_bind with (x := pnothing) (y := fun rc => match rc with RForward id => match g_label g id with Some next => psteps g f E (Some next) evs | None => pnothing end | _ => pnothing end).
        -- apply scan_enough. lia.
        -- apply tame_scan.
        -- intros [e| |id]; try apply suf_refl. destruct (g_label g id) as [nx|]; [|apply suf_refl].
           eapply suf_weak; [apply suf_bind with (x := psteps g f E (Some nx) evs) (y := fun _ => pnothing); [apply IH; exact Hf'|apply tame_run|intros (p & e); apply suf_refl]|].
           intros s2. unfold pboth, pupon, pnothing. destruct (prun g f E (Some nx) evs s2) as ([o|e0|p|] & s3); cbn; lia.
      * intros s2. unfold pboth, pnothing. lia.
    + unfold pspecial_step. apply tame_get. intros s1 H1. apply tame_bind; [apply tame_scan|]. intros [e| |id].
      * apply tame_ret.
      * apply tame_bind; [apply tame_put; exact H1|]. intros _. apply tame_bind; [apply tame_expected|]. intros; apply tame_ret.
      * destruct (g_label g id); [apply tame_bind; [apply tame_run|intros (p & e); apply tame_ret]|]. apply tame_bind; [apply tame_put; exact H1|]. intros _. apply tame_bind; [apply tame_loc|]. intros l s2 H2. exact H2.
    + exact Hc.
  - apply IH. exact Hf'.
  - apply suf_bind; [| |exact Hc].
    + unfold pexcept_scan, pexcept_steps. apply suf_get. intros s0 H0. apply suf_bind; [apply IH; exact Hf'|apply tame_run|]. intros ([|e] & t); [|apply suf_refl].
      apply suf_get. intros s1 H1. cbv zeta. destruct (Nat.ltb_spec (length (between s0 s1)) f) as [H|H].
      2:{ intros s _ Hs. exfalso. apply Hs. reflexivity. }
      pose proof (between_short s0 s1 H0) as Hb.
      replace (Nat.ltb (length (between s0 s1)) f') with true by (symmetry; apply Nat.ltb_lt; lia).
      intros s Hs Hne Hx.
      assert (Q : suf K (letp (p, _) := prun g f None (Some ex) [] in match p with Proceed => peof None | NotThisWay _ => pret false end)
                        (letp (p, _) := prun g f' None (Some ex) [] in match p with Proceed => peof None | NotThisWay _ => pret false end) (psteps g f None (Some ex) [])).
      { eapply suf_weak; [apply suf_bind with (x := psteps g f None (Some ex) []) (y := fun _ => pnothing); [apply IH; exact Hf'|apply tame_run|intros (p & t2); apply suf_refl]|].
        intros s2. unfold pboth, pupon, pnothing. destruct (prun g f None (Some ex) [] s2) as ([o|e0|p|] & s3); cbn; lia. }
      specialize (Q (Pst (between s0 s1) (p_at s0)) Hb).
      revert Q Hne. set (y := (letp (p, _) := prun g f None (Some ex) [] in _) _). set (y' := (letp (p, _) := prun g f' None (Some ex) [] in _) _).
      intros Q Hne. rewrite Q; [reflexivity| |exact Hx]. intros Z. apply Hne. rewrite Z. reflexivity.
    + unfold pexcept_scan. apply tame_get. intros s0 H0. apply tame_bind; [apply tame_run|]. intros ([|e] & t).
      * apply tame_get. intros s1 H1. cbv zeta. destruct (Nat.ltb _ _).
        -- match goal with |- tame (match fst ?z with _ => _ end) => destruct (fst z) as [[|]|e|p|] end; try (intros s2 H2; exact H2).
           apply tame_bind; [apply tame_put; exact H0|]. intros _. apply tame_bind; [apply tame_expected|]. intros; apply tame_ret.
        -- intros s2 H2. cbn [snd]. unfold short, move in *. cbn [p_rest]. rewrite skipn_length. lia.
      * apply tame_bind; [apply tame_put; exact H0|]. intros; apply tame_ret.
  - destruct (g_label g id) as [a|]; [|apply suf_refl]. destruct (g_canonical g id) as [nm|]; [|apply suf_refl].
    apply suf_next; [apply tame_loc|]. intros l0. apply suf_bind; [apply IH; exact Hf'|apply tame_run|].
    intros ([|e] & t); [|apply suf_refl]. apply suf_next; [apply tame_loc|]. intros l1. apply IH. exact Hf'.
Qed.
End Need.

(** ** The API *)
Theorem parse_needs : forall debug g fuel m rd, reader rd -> fst (parser_parse debug g fuel m rd) <> OutOfFuel ->
  forall fuel', parser_steps debug g fuel m rd + length (unread rd) + 2 <= fuel' -> fst (parser_parse debug g fuel' m rd) = fst (parser_parse debug g fuel m rd).
Proof.
  intros debug g fuel m rd Hr Hf fuel' Hle. rewrite steps_pure in Hle by exact Hr.
  destruct (parse_reader debug g fuel m rd Hr) as (A & _). destruct (parse_reader debug g fuel' m rd Hr) as (A' & _). rewrite A in Hf |- *. rewrite A'. clear A A'.
  unfold pmachine_parse in *.
  assert (Hne : fst (prun g fuel (ending_of rd) (Some (mc_entry m)) [] (stand rd)) <> OutOfFuel).
  { intros Z. apply Hf. destruct (prun g fuel (ending_of rd) (Some (mc_entry m)) [] (stand rd)) as (x & s) eqn:Ex. cbn in Z. subst x. rewrite (pbind_fuel _ _ _ _ Ex). reflexivity. }
  pose proof (need_run (length (unread rd)) g fuel _ fuel' (ending_of rd) (Some (mc_entry m)) [] Hle (stand rd) (le_n _) Hne (le_n _)) as Q.
  unfold pbind at 1. rewrite Q. reflexivity.
Qed.
(** With more instructions than that to execute, a parse that is given up never ends. *)
Theorem parse_never : forall debug g fuel m rd, reader rd -> fst (parser_parse debug g fuel m rd) = OutOfFuel ->
  forall fuel', fst (parser_parse debug g fuel' m rd) = OutOfFuel \/ fuel < parser_steps debug g fuel' m rd + length (unread rd) + 2.
Proof.
  intros debug g fuel m rd Hr Hf fuel'. destruct (fst (parser_parse debug g fuel' m rd)) eqn:E; [right|right|right|left; reflexivity].
  all: apply Nat.lt_nge; intros Hle; assert (Hne : fst (parser_parse debug g fuel' m rd) <> OutOfFuel) by (rewrite E; discriminate);
    rewrite (parse_needs debug g fuel' m rd Hr Hne fuel Hle), E in Hf; discriminate.
Qed.
