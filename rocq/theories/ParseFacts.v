(** Facts about the pure machine: fuel, progress, scanners. *)
From Coq Require Import String List NArith Arith Bool Lia.
From Verif Require Import Base Ident Tokenizer Ast Lex Syntax Io Graph Machine SpecText SpecSyntax SpecParse Pure TextFacts IoFacts PureFacts.
Import ListNotations.
Open Scope nat_scope.

(** ** More fuel changes nothing *)
Definition finer {A} (m m' : P A) : Prop := forall s, fst (m s) <> OutOfFuel -> m' s = m s.
Lemma finer_refl : forall {A} (m : P A), finer m m.
Proof. intros A m s _. reflexivity. Qed.
Lemma finer_fuel : forall {A} (m : P A), finer pno_fuel m.
Proof. intros A m s H. exfalso. apply H. reflexivity. Qed.
Lemma finer_bind : forall {A B} (m m' : P A) (k k' : A -> P B), finer m m' -> (forall a, finer (k a) (k' a)) ->
  finer (pbind m k) (pbind m' k').
Proof.
  intros A B m m' k k' H1 H2 s Hs. unfold pbind in *. destruct (m s) as (x & s1) eqn:Em.
  assert (Hx : x <> OutOfFuel). { intros ->. apply Hs. reflexivity. }
  rewrite (H1 s) by (rewrite Em; exact Hx). rewrite Em. destruct x as [a|e|p|]; try reflexivity. apply H2. exact Hs.
Qed.
Lemma finer_chars : forall E pred max f f' n, f <= f' -> finer (pchars_loop E f pred max n) (pchars_loop E f' pred max n).
Proof.
  intros E pred max. induction f as [|f IH]; intros f' n Hf; [apply finer_fuel|]. destruct f' as [|f']; [lia|].
  cbn [pchars_loop]. destruct (match max with Some m => _ | None => _ end); [|apply finer_refl].
  apply finer_bind; [apply finer_refl|]. intros s. apply finer_bind; [apply finer_refl|]. intros [c|]; [|apply finer_refl].
  destruct (negb (pred c)); [apply finer_refl|]. apply finer_bind; [apply IH; lia|]. intros r. apply finer_refl.
Qed.
Lemma finer_scan : forall E f f' sc def, f <= f' -> finer (pspecial_scan E f sc def) (pspecial_scan E f' sc def).
Proof.
  intros E f f' [c|pred mn mx|re fi|sy pr] def Hf; try apply finer_refl. cbn. unfold pchars_scan.
  apply finer_bind; [apply finer_refl|]. intros s. apply finer_bind; [apply finer_refl|]. intros l.
  apply finer_bind; [apply finer_chars; exact Hf|]. intros b. apply finer_refl.
Qed.
Lemma finer_rep : forall sub sub' mn mx f f', f <= f' -> (forall evs, finer (sub evs) (sub' evs)) ->
  forall i temp, finer (prep_loop sub f mn mx i temp) (prep_loop sub' f' mn mx i temp).
Proof.
  intros sub sub' mn mx f f' Hf Hs. revert f' Hf. induction f as [|f IH]; intros f' Hf i temp; [apply finer_fuel|].
  destruct f' as [|f']; [lia|]. cbn [prep_loop]. destruct (N.ltb i mx); [|apply finer_refl].
  apply finer_bind; [apply finer_refl|]. intros s. apply finer_bind; [apply Hs|]. intros ([|e] & t); [|apply finer_refl].
  apply finer_bind; [apply finer_refl|]. intros l. destruct (_ && _)%bool; [apply finer_refl|]. apply IH. lia.
Qed.
Lemma finer_or : forall sub sub' subs, (forall a, finer (sub a) (sub' a)) -> finer (por_loop sub subs) (por_loop sub' subs).
Proof.
  intros sub sub' subs Hs. induction subs as [|a r IH]; cbn [por_loop]; [apply finer_refl|].
  apply finer_bind; [apply finer_refl|]. intros s. apply finer_bind; [apply Hs|]. intros ([|e] & t); [apply finer_refl|].
  apply finer_bind; [apply finer_refl|]. intros _. apply finer_bind; [exact IH|]. intros o. apply finer_refl.
Qed.
Lemma finer_run : forall g f f' E next evs, f <= f' -> finer (prun g f E next evs) (prun g f' E next evs).
Proof.
  intros g. induction f as [|f IH]; intros f' E next evs Hf; [apply finer_fuel|]. destruct f' as [|f']; [lia|].
  assert (Hf' : f <= f') by lia. clear Hf.
  cbn [prun]. destruct next as [addr|]; [|apply finer_refl]. destruct (nth_error (g_instrs g) addr) as [ins|]; [|apply finer_refl].
  assert (Hc : forall pe, finer
     (let '(p, evs) := pe in match p with NotThisWay e => pret (NotThisWay e, evs) | Proceed => prun g f E (i_next ins) evs end)
     (let '(p, evs) := pe in match p with NotThisWay e => pret (NotThisWay e, evs) | Proceed => prun g f' E (i_next ins) evs end)).
  { intros ([|e] & ev); [apply IH; exact Hf'|apply finer_refl]. }
  destruct (i_step ins) as [mn mx s|subs|s|sc| |fa ex|id].
  - apply finer_bind; [apply finer_rep; [exact Hf'|intros; apply IH; exact Hf']|]. intros [e|t]; [apply finer_refl|apply IH; exact Hf'].
  - apply finer_bind; [apply finer_or; intros; apply IH; exact Hf'|]. intros [es|t]; [apply finer_refl|apply IH; exact Hf'].
  - apply finer_bind; [apply finer_refl|exact Hc].
  - apply finer_bind; [|exact Hc]. unfold pspecial_step. apply finer_bind; [apply finer_refl|]. intros s0.
    apply finer_bind; [apply finer_scan; exact Hf'|]. intros [e| |id]; try apply finer_refl.
    destruct (g_label g id); [|apply finer_refl]. apply finer_bind; [apply IH; exact Hf'|]. intros (p & e). apply finer_refl.
  - apply IH. exact Hf'.
  - apply finer_bind; [|exact Hc]. unfold pexcept_scan. apply finer_bind; [apply finer_refl|]. intros s0.
    apply finer_bind; [apply IH; exact Hf'|]. intros ([|e] & t); [|apply finer_refl].
    apply finer_bind; [apply finer_refl|]. intros s1. cbv zeta.
    destruct (Nat.ltb_spec (length (between s0 s1)) f) as [H|H].
    2:{ intros s Hs. exfalso. apply Hs. reflexivity. }
    replace (Nat.ltb (length (between s0 s1)) f') with true by (symmetry; apply Nat.ltb_lt; lia).
    intros s Hs.
    assert (Ht : finer (letp (p, _) := prun g f None (Some ex) [] in match p with Proceed => peof None | NotThisWay _ => pret false end)
                       (letp (p, _) := prun g f' None (Some ex) [] in match p with Proceed => peof None | NotThisWay _ => pret false end)).
    { apply finer_bind; [apply IH; exact Hf'|]. intros (p & t2). apply finer_refl. }
    specialize (Ht (Pst (between s0 s1) (p_at s0))).
    revert Ht Hs. set (y := (letp (p, _) := prun g f None (Some ex) [] in _) _). set (y' := (letp (p, _) := prun g f' None (Some ex) [] in _) _).
    intros Ht Hs. destruct (fst y) as [b|e|p|] eqn:Ex.
    4:{ exfalso. apply Hs. reflexivity. }
    all: rewrite Ht, Ex by discriminate; reflexivity.
  - destruct (g_label g id); [|apply finer_refl]. destruct (g_canonical g id); [|apply finer_refl].
    apply finer_bind; [apply finer_refl|]. intros l0. apply finer_bind; [apply IH; exact Hf'|]. intros ([|e] & t); [|apply finer_refl].
    apply finer_bind; [apply finer_refl|]. intros l1. apply IH. exact Hf'.
Qed.

(** ** Moving forward *)
Definition moved (s s' : pst) : Prop := exists w, goes s w s'.
Lemma goes_push : forall s w s', goes s w s' <-> p_rest s = w ++ p_rest s' /\ p_at s' = loc_push_str (p_at s) w.
Proof.
  intros s w s'. unfold goes. split; intros (H1 & H2); (split; [exact H1|]).
  - eapply reaches_unique; [exact H2|]. apply push_str_reaches.
  - rewrite H2. apply push_str_reaches.
Qed.
Lemma goes_nil : forall s, goes s [] s.
Proof. intros s. apply goes_push. auto. Qed.
Lemma goes_app : forall s w s1 w2 s2, goes s w s1 -> goes s1 w2 s2 -> goes s (w ++ w2) s2.
Proof.
  intros s w s1 w2 s2 H1 H2. apply goes_push in H1 as (A & B). apply goes_push in H2 as (C & D). apply goes_push.
  rewrite A, C, D, B, push_str_app, app_assoc. auto.
Qed.
Lemma goes_fun : forall s w s1 s2, goes s w s1 -> goes s w s2 -> s1 = s2.
Proof.
  intros s w [r1 a1] [r2 a2] H1 H2. apply goes_push in H1 as (A & B). apply goes_push in H2 as (C & D). cbn in *.
  rewrite A in C. apply app_inv_head in C. congruence.
Qed.
Lemma goes_word : forall s w1 w2 s', goes s w1 s' -> goes s w2 s' -> w1 = w2.
Proof. intros s w1 w2 s' (A & _) (B & _). rewrite A in B. apply app_inv_tail in B. exact B. Qed.
Lemma moved_refl : forall s, moved s s.
Proof. intros s. exists []. apply goes_nil. Qed.
Lemma moved_trans : forall s s1 s2, moved s s1 -> moved s1 s2 -> moved s s2.
Proof. intros s s1 s2 (w & H) (w2 & H2). exists (w ++ w2). eapply goes_app; eauto. Qed.
Lemma moved_antisym : forall s s', moved s s' -> moved s' s -> s = s'.
Proof.
  intros s s' (w & H) (w2 & H2). pose proof (goes_app _ _ _ _ _ H H2) as H3.
  pose proof (goes_word _ _ _ _ H3 (goes_nil s)) as Hw. apply app_eq_nil in Hw as (-> & ->). exact (goes_fun _ _ _ _ (goes_nil s) H).
Qed.
Lemma moved_at : forall s s', moved s s' -> p_at s' = p_at s -> s' = s.
Proof.
  intros s s' (w & H) Ha. destruct w as [|c w]; [exact (goes_fun _ _ _ _ H (goes_nil s))|].
  apply goes_push in H as (_ & H). pose proof (loc_cmp_push (c :: w) (p_at s) ltac:(discriminate)) as L.
  rewrite <- H, Ha in L. rewrite (proj2 (loc_cmp_eq _ _) eq_refl) in L. discriminate.
Qed.
Lemma move_goes : forall n s, goes s (firstn n (p_rest s)) (move n s).
Proof. intros n s. apply goes_push. unfold move. cbn. rewrite firstn_skipn. auto. Qed.
Lemma move_moved : forall n s, moved s (move n s).
Proof. intros n s. eexists. apply move_goes. Qed.
Lemma between_goes : forall s w s', goes s w s' -> between s s' = w.
Proof.
  intros s w s' (H & _). unfold between. rewrite H, app_length, Nat.add_sub, firstn_app, Nat.sub_diag, firstn_O, app_nil_r, firstn_all.
  reflexivity.
Qed.
Definition fwd {A} (s0 : pst) (m : P A) : Prop := forall s, moved s0 s -> moved s0 (snd (m s)).
Lemma fwd_ret : forall {A} s0 (a : A), fwd s0 (pret a).
Proof. intros A s0 a s H. exact H. Qed.
Lemma fwd_bind : forall {A B} s0 (m : P A) (k : A -> P B), fwd s0 m -> (forall a, fwd s0 (k a)) -> fwd s0 (pbind m k).
Proof.
  intros A B s0 m k H1 H2 s Hs. specialize (H1 s Hs). unfold pbind. destruct (m s) as ([a|e|p|] & s1); try exact H1.
  exact (H2 a s1 H1).
Qed.
Lemma fwd_get : forall {B} s0 (k : pst -> P B), (forall s, moved s0 s -> fwd s0 (k s)) -> fwd s0 (pbind pget k).
Proof. intros B s0 k H s Hs. exact (H s Hs s Hs). Qed.
Lemma fwd_put : forall s0 s, moved s0 s -> fwd s0 (pput s).
Proof. intros s0 s H s1 _. exact H. Qed.
Lemma fwd_read : forall E s0, fwd s0 (pread E).
Proof.
  intros E s0 s H. unfold pread. destruct (p_rest s); [destruct E; exact H|]. cbn [snd]. eapply moved_trans; [exact H|apply move_moved].
Qed.
Lemma fwd_back : forall {A} s0 (m : P A), fwd s0 m -> fwd s0 (back m).
Proof. intros A s0 m H s Hs. specialize (H s Hs). unfold back. destruct (m s) as ([a|e|p|] & s1); auto. Qed.
Lemma fwd_eof : forall E s0, fwd s0 (peof E).
Proof.
  intros E s0 s H. pose proof (fwd_read E s0 s H) as Hr. unfold peof. destruct (pread E s) as ([a|e|p|] & s1); auto.
Qed.
Lemma fwd_peek : forall E n s0, fwd s0 (ppeek E n).
Proof.
  intros E n s0. apply fwd_back. induction n as [|n IH]; [apply fwd_ret|]. cbn. apply fwd_bind; [apply fwd_read|].
  intros [c|]; [|apply fwd_ret]. apply fwd_bind; [exact IH|]. intros; apply fwd_ret.
Qed.
Lemma fwd_prefix : forall E w s0, fwd s0 (pprefix E w).
Proof.
  intros E w s0. apply fwd_back. induction w as [|n w IH]; [apply fwd_ret|]. cbn. apply fwd_bind; [apply fwd_read|].
  intros [c|]; [|apply fwd_ret]. destruct (N.eqb c n); [exact IH|apply fwd_ret].
Qed.
Lemma fwd_expected : forall E g i s0, fwd s0 (perr_expected E g i).
Proof.
  intros E g i s0. apply fwd_bind; [intros s H; exact H|]. intros l s H.
  assert (F : fwd s0 (pstream_prefix E)).
  { apply fwd_bind; [apply fwd_eof|]. intros [|]; [apply fwd_ret|]. apply fwd_bind; [apply fwd_peek|]. intros; apply fwd_ret. }
  specialize (F s H). cbv beta zeta. destruct (pstream_prefix E s) as ([a|e|p|] & s1); exact F.
Qed.
Lemma fwd_skip : forall n s0, fwd s0 (pskip n).
Proof. intros n s0 s H. cbn. eapply moved_trans; [exact H|apply move_moved]. Qed.
Lemma fwd_chars : forall E pred max f n s0, fwd s0 (pchars_loop E f pred max n).
Proof.
  intros E pred max. induction f as [|f IH]; intros n s0; [intros s H; exact H|]. cbn [pchars_loop].
  destruct (match max with Some m => _ | None => _ end); [|apply fwd_ret].
  apply fwd_get. intros s Hs. apply fwd_bind; [apply fwd_read|]. intros [c|]; [|apply fwd_ret].
  destruct (negb (pred c)).
  - apply fwd_bind; [apply fwd_put; exact Hs|]. intros; apply fwd_ret.
  - apply fwd_bind; [apply IH|]. intros; apply fwd_ret.
Qed.
Lemma fwd_peek_loop : forall E n s0, fwd s0 (ppeek_loop E n).
Proof.
  intros E n s0. induction n as [|n IH]; [apply fwd_ret|]. cbn. apply fwd_bind; [apply fwd_read|].
  intros [c|]; [|apply fwd_ret]. apply fwd_bind; [exact IH|]. intros; apply fwd_ret.
Qed.
Lemma Forall_from : forall {A} (Q : A -> Prop) i l x r, Forall Q l -> skipn i l = x :: r -> Q x /\ Forall Q r.
Proof.
  intros A Q i l x r H E. rewrite <- (firstn_skipn i l), E in H. apply Forall_app in H as (_ & H).
  split; [exact (Forall_inv H)|exact (Forall_inv_tail H)].
Qed.
Lemma fwd_sprog : forall E p own s0, Forall (moved s0) own -> fwd s0 (prun_sprog E p own).
Proof.
  intros E. induction p as [r|e|k IH|k IH|k IH|w k IH|n k IH|n k IH|k IH|i k IH|i k IH]; intros own s0 Ho; cbn [prun_sprog].
  - apply fwd_ret.
  - intros s H; exact H.
  - apply fwd_bind; [apply fwd_read|]. auto.
  - apply fwd_bind; [intros s H; exact H|]. auto.
  - apply fwd_bind; [apply fwd_eof|]. auto.
  - apply fwd_bind; [apply fwd_prefix|]. auto.
  - apply fwd_bind; [apply fwd_peek|]. auto.
  - apply fwd_bind; [|auto]. apply fwd_bind; [apply fwd_peek_loop|]. intros; apply fwd_ret.
  - apply fwd_get. auto.
  - destruct (skipn i own) as [|t older] eqn:Ei; [auto|]. destruct (Forall_from _ _ _ _ _ Ho Ei).
    apply fwd_get. intros s _. apply fwd_bind; [apply fwd_put; assumption|]. auto.
  - destruct (skipn i own) as [|t older] eqn:Ei; [auto|]. destruct (Forall_from _ _ _ _ _ Ho Ei). auto.
Qed.
Lemma fwd_scan : forall E f sc def s0, fwd s0 (pspecial_scan E f sc def).
Proof.
  intros E f [c|pred mn mx|re fi|sy pr] def s0; cbn.
  - apply fwd_ret.
  - apply fwd_get. intros s Hs. apply fwd_bind; [intros s1 H; exact H|]. intros l. apply fwd_bind; [apply fwd_chars|]. intros b.
    destruct (match mn with Some m => _ | None => _ end); [|apply fwd_ret]. apply fwd_bind; [apply fwd_put; exact Hs|]. intros; apply fwd_ret.
  - apply fwd_bind; [intros s1 H; exact H|]. intros l. apply fwd_bind; [apply fwd_peek|]. intros tok.
    destruct (fi tok) as [([|k] & len)|]; try apply fwd_ret. cbv zeta. destruct (Nat.ltb _ _).
    + intros s H. exact H.
    + apply fwd_bind; [apply fwd_skip|]. intros; apply fwd_ret.
  - apply fwd_sprog. constructor.
Qed.
Lemma fwd_run : forall g f E next evs s0, fwd s0 (prun g f E next evs).
Proof.
  intros g. induction f as [|f IH]; intros E next evs s0; [intros s H; exact H|].
  cbn [prun]. destruct next as [addr|]; [|apply fwd_ret]. destruct (nth_error (g_instrs g) addr) as [ins|]; [|intros s H; exact H].
  assert (Hc : forall pe, fwd s0
     (let '(p, evs) := pe in match p with NotThisWay e => pret (NotThisWay e, evs) | Proceed => prun g f E (i_next ins) evs end)).
  { intros ([|e] & ev); [apply IH|apply fwd_ret]. }
  assert (Hl : fwd s0 ploc) by (intros s H; exact H).
  destruct (i_step ins) as [mn mx s|subs|s|sc| |fa ex|id].
  - apply fwd_bind; [|intros [e|t]; [apply fwd_ret|apply IH]]. generalize (@nil event) as t. generalize 0%N as i. generalize f at 2 as f2.
    induction f2 as [|f2 IH2]; intros i t; [intros s1 H; exact H|]. cbn [prep_loop]. destruct (N.ltb i mx); [|apply fwd_ret].
    apply fwd_get. intros s1 Hs. apply fwd_bind; [apply IH|]. intros ([|e] & t2).
    + apply fwd_bind; [exact Hl|]. intros l. destruct (_ && _)%bool; [intros s2 H; exact H|apply IH2].
    + destruct (N.ltb i mn); [apply fwd_ret|]. apply fwd_bind; [apply fwd_put; exact Hs|]. intros; apply fwd_ret.
  - apply fwd_bind.
    + induction subs as [|a r IHr]; cbn [por_loop]; [apply fwd_ret|]. apply fwd_get. intros s1 Hs. apply fwd_bind; [apply IH|].
      intros ([|e] & t); [apply fwd_ret|]. apply fwd_bind; [apply fwd_put; exact Hs|]. intros _. apply fwd_bind; [exact IHr|]. intros; apply fwd_ret.
    + intros [es|t]; [|apply IH]. destruct (pick_error (rev es)); [|intros s H; exact H]. apply fwd_bind; [exact Hl|]. intros l.
      destruct (loc_eqb _ _); [|apply fwd_ret]. apply fwd_bind; [apply fwd_expected|]. intros; apply fwd_ret.
  - apply fwd_bind; [|exact Hc]. unfold pterminal_step. apply fwd_bind; [apply fwd_prefix|]. intros [|].
    + apply fwd_bind; [exact Hl|]. intros l. apply fwd_bind; [apply fwd_skip|]. intros; apply fwd_ret.
    + apply fwd_bind; [apply fwd_expected|]. intros; apply fwd_ret.
  - apply fwd_bind; [|exact Hc]. unfold pspecial_step. apply fwd_get. intros s1 Hs. apply fwd_bind; [apply fwd_scan|]. intros [e| |id].
    + apply fwd_ret.
    + apply fwd_bind; [apply fwd_put; exact Hs|]. intros _. apply fwd_bind; [apply fwd_expected|]. intros; apply fwd_ret.
    + destruct (g_label g id).
      * apply fwd_bind; [apply IH|]. intros (p & e). apply fwd_ret.
      * apply fwd_bind; [apply fwd_put; exact Hs|]. intros _. apply fwd_bind; [exact Hl|]. intros l s H. exact H.
  - apply IH.
  - apply fwd_bind; [|exact Hc]. unfold pexcept_scan. apply fwd_get. intros s1 Hs. apply fwd_bind; [apply IH|]. intros ([|e] & t).
    2:{ apply fwd_bind; [apply fwd_put; exact Hs|]. intros; apply fwd_ret. }
    apply fwd_get. intros s2 Hs2. cbv zeta. destruct (Nat.ltb _ _).
    2:{ intros s3 H3. cbn. eapply moved_trans; [exact Hs|apply move_moved]. }
    destruct (fst _) as [[|]|e|p|]; try (intros s3 H3; exact H3).
    apply fwd_bind; [apply fwd_put; exact Hs|]. intros _. apply fwd_bind; [apply fwd_expected|]. intros; apply fwd_ret.
  - destruct (g_label g id); [|intros s H; exact H]. destruct (g_canonical g id); [|intros s H; exact H].
    apply fwd_bind; [exact Hl|]. intros l0. apply fwd_bind; [apply IH|]. intros ([|e] & t); [|apply fwd_ret].
    apply fwd_bind; [exact Hl|]. intros l1. apply IH.
Qed.

(** ** On a complete text *)
Lemma pread_some : forall E c r s, p_rest s = c :: r -> pread E s = (Ok (Some c), move 1 s).
Proof. intros E c r s H. unfold pread. rewrite H. reflexivity. Qed.
Lemma pread_none : forall s, p_rest s = [] -> pread None s = (Ok None, s).
Proof. intros s H. unfold pread. rewrite H. reflexivity. Qed.
Lemma peof_none : forall s, peof None s = (Ok (match p_rest s with [] => true | _ => false end), s).
Proof. intros s. unfold peof, pread. destruct (p_rest s); reflexivity. Qed.
Lemma ppeek_none : forall n s, ppeek None n s = (Ok (firstn n (p_rest s)), s).
Proof.
  intros n s. unfold ppeek, back.
  enough (H : forall n s, exists s', ppeek_loop None n s = (Ok (firstn n (p_rest s)), s')).
  { destruct (H n s) as (s' & ->). reflexivity. }
  clear. induction n as [|n IH]; intros s; [exists s; reflexivity|]. cbn [ppeek_loop]. unfold pbind.
  destruct (p_rest s) as [|c r] eqn:Es.
  - rewrite (pread_none _ Es). exists s. reflexivity.
  - rewrite (pread_some _ _ _ _ Es). destruct (IH (move 1 s)) as (s' & ->). exists s'. cbn. rewrite Es. reflexivity.
Qed.
Definition symbol_at (g : graph) (i : option nat) : str :=
  match i with
  | Some i => match nth_error (g_instrs g) i with Some n => i_symbol n | None => of_string "EOF" end
  | None => of_string "EOF"
  end.
Lemma pexpected_none : forall g i s, perr_expected None g i s = (Ok (wanted s (symbol_at g i)), s).
Proof.
  intros g i s. unfold perr_expected, pstream_prefix, pbind, ploc, wanted, quoted. cbn -[firstn Nat.leb Nat.ltb]. rewrite peof_none. destruct (p_rest s) as [|c r] eqn:Es; [reflexivity|].
  rewrite ppeek_none, Es. rewrite firstn_length. unfold pret. destruct (Nat.leb_spec (length (c :: r)) 8) as [H|H].
  - destruct (Nat.ltb_spec (Nat.min 9 (length (c :: r))) 9) as [H2|H2]; [|lia]. rewrite firstn_all2 by lia. reflexivity.
  - destruct (Nat.ltb_spec (Nat.min 9 (length (c :: r))) 9) as [H2|H2]; [lia|]. rewrite firstn_firstn. reflexivity.
Qed.
Lemma pexpected_at : forall g i s next sym def st, nth_error (g_instrs g) i = Some (Instr next sym def st) ->
  perr_expected None g (Some i) s = (Ok (wanted s sym), s).
Proof. intros g i s next sym def st H. rewrite pexpected_none. unfold symbol_at. rewrite H. reflexivity. Qed.
Lemma pprefix_none : forall w s,
  (exists s', goes s w s' /\ pprefix None w s = (Ok true, s)) \/ ((forall s', ~ goes s w s') /\ pprefix None w s = (Ok false, s)).
Proof.
  intros w s. unfold pprefix, back.
  enough (H : forall w s, (exists s', goes s w s' /\ pprefix_loop None w s = (Ok true, s')) \/
     ((forall s', ~ goes s w s') /\ exists s1, pprefix_loop None w s = (Ok false, s1))).
  { destruct (H w s) as [(s' & A & ->)|(A & s1 & ->)]; [left; exists s'|right]; auto. }
  clear. induction w as [|a w IH]; intros s.
  { left. exists s. split; [apply goes_nil|reflexivity]. }
  cbn [pprefix_loop]. unfold pbind. destruct (p_rest s) as [|c r] eqn:Es.
  - right. rewrite (pread_none _ Es). split; [|exists s; reflexivity]. intros s' (H & _). rewrite Es in H. discriminate.
  - rewrite (pread_some _ _ _ _ Es). pose proof (move_goes 1 s) as Hm. rewrite Es in Hm. cbn in Hm.
    destruct (N.eqb_spec c a) as [->|Hc].
    + destruct (IH (move 1 s)) as [(s' & A & B)|(A & s1 & B)].
      * left. exists s'. split; [|exact B]. exact (goes_app _ _ _ _ _ Hm A).
      * right. split; [|exists s1; exact B]. intros s' H. apply (A s').
        apply goes_push in H as (H1 & H2). apply goes_push. rewrite Es in H1. injection H1 as H1.
        unfold move. cbn. rewrite Es. cbn. auto.
    + right. split; [|eexists; reflexivity]. intros s' (H & _). rewrite Es in H. injection H as H _. contradiction.
Qed.
Lemma goes_move : forall s w s', goes s w s' -> move (length w) s = s'.
Proof.
  intros s w s' H. apply goes_push in H as (A & B). destruct s' as [r a]. cbn in *. unfold move. rewrite A.
  rewrite skipn_app, Nat.sub_diag, skipn_all, firstn_app, Nat.sub_diag, firstn_O, app_nil_r, firstn_all, <- B. reflexivity.
Qed.

(** ** Scanners *)
Lemma run_of_nil : forall pred max s, max = Some 0%N \/ p_rest s = [] \/ (exists c r, p_rest s = c :: r /\ pred c = false) ->
  longest_run pred max s [] s.
Proof.
  intros pred max s H. split; [apply goes_nil|]. split; [constructor|]. split; [intros m _; cbn; lia|].
  destruct H as [->|[H|H]]; auto.
Qed.
Definition lower (max : option N) (n : N) : option N := match max with Some m => Some (m - n)%N | None => None end.
Lemma chars_loop_run : forall pred max f n s, (forall m, max = Some m -> (n <= m)%N) ->
  match pchars_loop None f pred max n s with
  | (Ok w, s') => longest_run pred (lower max n) s w s'
  | (OutOfFuel, _) => f <= length (p_rest s)
  | _ => False
  end.
Proof.
  intros pred max. induction f as [|f IH]; intros n s Hn; [cbn; lia|]. cbn [pchars_loop].
  destruct (match max with Some m => (n <? m)%N | None => true end) eqn:Em.
  2:{ destruct max as [m|]; [|discriminate]. apply N.ltb_ge in Em. specialize (Hn m eq_refl).
      apply run_of_nil. left. cbn. f_equal. lia. }
  assert (Hn' : forall m, max = Some m -> (n + 1 <= m)%N). { intros m ->. apply N.ltb_lt in Em. lia. }
  rewrite (pbind_ok pget _ s s s eq_refl). destruct (p_rest s) as [|c r] eqn:Es.
  - rewrite (pbind_ok _ _ _ _ _ (pread_none _ Es)). apply run_of_nil. auto.
  - rewrite (pbind_ok _ _ _ _ _ (pread_some _ _ _ _ Es)). pose proof (move_goes 1 s) as Hm. rewrite Es in Hm. cbn in Hm.
    destruct (pred c) eqn:Ep; cbn [negb].
    + specialize (IH (n + 1)%N (move 1 s) Hn'). destruct (pchars_loop None f pred max (n + 1) (move 1 s)) as ([w|e|p|] & s') eqn:Eq; try contradiction.
      * rewrite (pbind_ok _ _ _ _ _ Eq). destruct IH as (A & B & C & D). split; [exact (goes_app _ _ _ _ _ Hm A)|].
        split; [constructor; auto|]. split.
        -- intros m Hx. destruct max as [mx|]; [|discriminate]. injection Hx as <-. specialize (C _ eq_refl).
           specialize (Hn' mx eq_refl). cbn [length]. lia.
        -- destruct D as [D|[D|D]]; auto. right. left. destruct max as [mx|]; [|discriminate]. injection D as D.
           specialize (Hn' mx eq_refl). cbn [length lower]. f_equal. lia.
      * rewrite (pbind_fuel _ _ _ _ Eq). unfold move in IH. cbn in IH. rewrite Es in IH. cbn in IH. cbn [length]. lia.
    + rewrite (pbind_ok (pput s) _ _ tt s eq_refl). apply run_of_nil. right. right. exists c, r. auto.
Qed.
Lemma longest_run_fun : forall pred max s w1 s1 w2 s2, longest_run pred max s w1 s1 -> longest_run pred max s w2 s2 -> w1 = w2 /\ s1 = s2.
Proof.
  assert (G : forall pred max s w1 s1 w2 s2, longest_run pred max s w1 s1 -> longest_run pred max s w2 s2 -> length w1 <= length w2 -> w1 = w2).
  { intros pred max s w1 s1 w2 s2 ((A1 & _) & B1 & C1 & D1) ((A2 & _) & B2 & C2 & D2) Hl.
    rewrite A1 in A2. assert (exists t, w2 = w1 ++ t /\ p_rest s1 = t ++ p_rest s2) as (t & -> & Ht).
    { clear - A2 Hl. revert w2 A2 Hl. induction w1 as [|c w1 IH]; intros w2 A2 Hl; [exists w2; auto|].
      destruct w2 as [|d w2]; [cbn in Hl; lia|]. cbn in A2. injection A2 as -> A2. cbn in Hl.
      destruct (IH w2 A2 ltac:(lia)) as (t & -> & H). exists t. auto. }
    destruct t as [|c t]; [symmetry; apply app_nil_r|]. exfalso. destruct D1 as [D1|[D1|(d & r & D1 & D1')]].
    - rewrite D1 in Ht. discriminate.
    - specialize (C2 _ D1). rewrite app_length in C2. cbn in C2. lia.
    - rewrite D1 in Ht. injection Ht as -> _. apply Forall_app in B2 as (_ & B2). apply Forall_inv in B2. congruence. }
  intros pred max s w1 s1 w2 s2 H1 H2.
  assert (w1 = w2). { destruct (Nat.le_ge_cases (length w1) (length w2)); [eapply G; eauto|symmetry; eapply G; eauto]. }
  subst w2. split; [reflexivity|]. destruct H1 as (H1 & _), H2 as (H2 & _). exact (goes_fun _ _ _ _ H1 H2).
Qed.
Lemma goes_within : forall s n w1 s1 w2 s2, goes s w1 s1 -> goes s w2 s2 -> length w1 <= n -> length w2 <= n ->
  (length w1 < n -> p_rest s1 = []) -> (length w2 < n -> p_rest s2 = []) -> w1 = w2 /\ s1 = s2.
Proof.
  assert (L : forall (w1 w2 r1 r2 : list N) n, w1 ++ r1 = w2 ++ r2 -> length w1 <= n -> length w2 <= n ->
    (length w1 < n -> r1 = []) -> (length w2 < n -> r2 = []) -> w1 = w2).
  { induction w1 as [|a w1 IH]; intros [|b w2] r1 r2 n H L1 L2 F1 F2; cbn in *; auto.
    - rewrite F1 in H by lia. discriminate.
    - rewrite F2 in H by lia. discriminate.
    - injection H as -> H. f_equal. eapply (IH w2 r1 r2 (n - 1)); [exact H|lia|lia|intros; apply F1; lia|intros; apply F2; lia]. }
  intros s n w1 s1 w2 s2 H1 H2 L1 L2 F1 F2.
  assert (w1 = w2) as <-. { eapply L; [|exact L1|exact L2|exact F1|exact F2]. destruct H1 as (<- & _), H2 as (<- & _). reflexivity. }
  split; [reflexivity|]. exact (goes_fun _ _ _ _ H1 H2).
Qed.
Lemma app_split : forall {A} (a : list A) x b c y d, a ++ x :: b = c ++ y :: d -> length a = length c -> x = y /\ b = d.
Proof.
  intros A a. induction a as [|z a IH]; intros x b [|t c] y d H L; try discriminate L; cbn in H; injection H.
  - auto.
  - intros H2 _. eapply IH; [exact H2|]. cbn in L. lia.
Qed.
Lemma bool_iff : forall (a b : bool) (Q : Prop), (a = true <-> Q) -> (b = true <-> Q) -> a = b.
Proof. intros [|] [|] Q H1 H2; auto; exfalso; [assert (false = true) by tauto|assert (false = true) by tauto]; discriminate. Qed.
Lemma programmed_fun : forall own p s r1, programmed own p s r1 -> forall r2, programmed own p s r2 -> r1 = r2.
Proof.
  assert (Over : forall (a : list pst) x b, length (a ++ x :: b) <= length a -> False).
  { intros a x b H. rewrite app_length in H. cbn in H. lia. }
  induction 1 as [own r s|own e s|own k c s s' r Hg Hp IH|own k s r Hn Hp IH|own k s r Hp IH
    |own k b s r Hb Hp IH|own w k b s r Hb Hp IH|own n k w s s' r Hg Hl Hf Hp IH|own n k w s s' r Hg Hl Hf Hp IH
    |own k s r Hp IH|newer s' older k n s r Hc Hp IH|newer s' older k s r Hp IH|own i k s r Hi Hp IH|own i k s r Hi Hp IH];
    intros r2 H2.
  - inversion H2; subst; auto.
  - inversion H2; subst; auto.
  - inversion H2; subst.
    + match goal with H : goes s [_] ?y |- _ => rename H into Hg2 end.
      assert (c0 = c) as ->. { destruct Hg as (Hg & _), Hg2 as (Hg2 & _). rewrite Hg in Hg2. injection Hg2 as -> _. reflexivity. }
      assert (s'0 = s') as -> by exact (goes_fun _ _ _ _ Hg2 Hg). auto.
    + destruct Hg as (Hg & _). rewrite Hg in *. discriminate.
  - inversion H2; subst; auto. match goal with H : goes s [_] ?y |- _ => destruct H as (H & _) end. rewrite Hn in *. discriminate.
  - inversion H2; subst; auto.
  - inversion H2 as [| | | | |? ? b2 ? ? Hb2 Hp2| | | | | | | |]; subst. assert (b = b2) as <- by (eapply bool_iff; eauto). auto.
  - inversion H2 as [| | | | | |? ? ? b2 ? ? Hb2 Hp2| | | | | | |]; subst. assert (b = b2) as <- by (eapply bool_iff; eauto). auto.
  - inversion H2 as [| | | | | | |? ? ? w2 ? s2 ? Hg2 Hl2 Hf2 Hp2| | | | | |]; subst.
    destruct (goes_within _ _ _ _ _ _ Hg Hg2 Hl Hl2 Hf Hf2) as (-> & ->). auto.
  - inversion H2 as [| | | | | | | |? ? ? w2 ? s2 ? Hg2 Hl2 Hf2 Hp2| | | | |]; subst.
    destruct (goes_within _ _ _ _ _ _ Hg Hg2 Hl Hl2 Hf Hf2) as (-> & ->). auto.
  - inversion H2; subst; auto.
  - remember (newer ++ s' :: older) as own eqn:Eo. inversion H2 as [| | | | | | | | | |newer2 s2 older2 ? n2 ? ? Hc2 Hp2| |? ? ? ? ? Hi Hp2|]; subst.
    + match goal with H : _ ++ _ :: _ = _ |- _ => apply app_split in H as (-> & ->) end; [|assumption].
      assert (n = n2) as <- by lia. auto.
    + exfalso. eapply Over. eassumption.
  - remember (newer ++ s' :: older) as own eqn:Eo. inversion H2 as [| | | | | | | | | | |newer2 s2 older2 ? ? ? Hp2| |? ? ? ? ? Hi Hp2]; subst.
    + match goal with H : _ ++ _ :: _ = _ |- _ => apply app_split in H as (-> & ->) end; [|assumption]. auto.
    + exfalso. eapply Over. eassumption.
  - inversion H2; subst; auto. exfalso. eapply Over. eassumption.
  - inversion H2; subst; auto. exfalso. eapply Over. eassumption.
Qed.
Lemma scanned_fun : forall sc def s r1 r2, scanned sc def s r1 -> scanned sc def s r2 -> r1 = r2.
Proof.
  intros sc def s r1 r2 H1 H2. destruct H1; inversion H2; subst; auto;
  repeat match goal with
  | A : longest_run ?p ?m ?s _ _, B : longest_run ?p ?m ?s _ _ |- _ =>
      let L := fresh in destruct (longest_run_fun _ _ _ _ _ _ _ A B) as (? & ?); clear B; subst
  end; try contradiction; auto.
  - match goal with H : find _ = Some (0, ?a), H2 : find _ = Some (0, ?b) |- _ => rewrite H in H2; injection H2 as <- end.
    do 2 f_equal. eapply goes_fun; eauto.
  - match goal with H : find _ = Some (0, ?a), H2 : find _ = Some (0, ?b) |- _ => rewrite H in H2; injection H2 as <- end. lia.
  - exfalso. match goal with H : forall x, find _ <> Some (0, x) |- _ => eapply H; eauto end.
  - match goal with H : find _ = Some (0, ?a), H2 : find _ = Some (0, ?b) |- _ => rewrite H in H2; injection H2 as <- end. lia.
  - exfalso. match goal with H : forall x, find _ <> Some (0, x) |- _ => eapply H; eauto end.
  - exfalso. match goal with H : forall x, find _ <> Some (0, x) |- _ => eapply H; eauto end.
  - exfalso. match goal with H : forall x, find _ <> Some (0, x) |- _ => eapply H; eauto end.
  - eapply programmed_fun; eauto.
Qed.
Definition scan_is (x : res reaction * pst) (r : sres) : Prop :=
  match x with
  | (Ok re, s') => r = reacts s' re
  | (Err e, _) => r = SFail e
  | _ => False
  end.
(** Every place of a stack of marks is at or after the one below it. *)
Fixpoint stacked (s : pst) (own : list pst) : Prop :=
  match own with [] => True | t :: own' => length (p_rest s) <= length (p_rest t) /\ stacked t own' end.
Lemma stacked_on : forall s s' own, length (p_rest s') <= length (p_rest s) -> stacked s own -> stacked s' own.
Proof. intros s s' [|t own]; cbn; [auto|]. intros H (H1 & H2). split; [lia|exact H2]. Qed.
Lemma stacked_skip : forall i s own t older, stacked s own -> skipn i own = t :: older -> length (p_rest s) <= length (p_rest t) /\ stacked t older.
Proof.
  induction i as [|i IH]; intros s [|x own] t older H E; try discriminate E; cbn in E.
  - injection E as -> ->. exact H.
  - destruct H as (H1 & H2). destruct (IH _ _ _ _ H2 E). split; [lia|assumption].
Qed.
Lemma skipn_split : forall {A} i (l : list A) x r, skipn i l = x :: r -> exists a, l = a ++ x :: r /\ length a = i.
Proof.
  intros A i l x r H. exists (firstn i l). split; [rewrite <- H; symmetry; apply firstn_skipn|].
  rewrite firstn_length. pose proof (f_equal (@length _) H) as H2. rewrite skipn_length in H2. cbn in H2. lia.
Qed.
Lemma ppeek_loop_none : forall n s, ppeek_loop None n s = (Ok (firstn n (p_rest s)), move n s).
Proof.
  assert (M0 : forall s, move 0 s = s) by (intros [r a]; reflexivity).
  induction n as [|n IH]; intros s; [rewrite M0; reflexivity|]. cbn [ppeek_loop]. destruct (p_rest s) as [|c r] eqn:Es.
  - rewrite (pbind_ok _ _ _ _ _ (pread_none _ Es)). unfold move. rewrite Es. cbn. destruct s. cbn in Es. subst. reflexivity.
  - rewrite (pbind_ok _ _ _ _ _ (pread_some _ _ _ _ Es)). rewrite (pbind_ok _ _ _ _ _ (IH _)). unfold pret, move. cbn [p_rest p_at]. rewrite Es. reflexivity.
Qed.
Lemma move_len : forall n s, length (p_rest (move n s)) <= length (p_rest s).
Proof. intros n s. unfold move. cbn. rewrite skipn_length. lia. Qed.
Lemma move_within : forall n s, length (firstn n (p_rest s)) <= n /\ (length (firstn n (p_rest s)) < n -> p_rest (move n s) = []).
Proof.
  intros n s. rewrite firstn_length. split; [lia|]. intros H. unfold move. cbn. apply skipn_all2. lia.
Qed.
Lemma sprog_own_none : forall p own s, stacked s own -> exists r, programmed own p s r /\ scan_is (prun_sprog None p own s) r.
Proof.
  induction p as [r|e|k IH|k IH|k IH|w k IH|n k IH|n k IH|k IH|i k IH|i k IH]; intros own s Hs; cbn [prun_sprog].
  - eexists. split; [constructor|reflexivity].
  - eexists. split; [constructor|reflexivity].
  - destruct (p_rest s) as [|c rr] eqn:Es.
    + rewrite (pbind_ok _ _ _ _ _ (pread_none _ Es)). destruct (IH None own s Hs) as (r & A & B). exists r. split; [apply pg_end; auto|exact B].
    + rewrite (pbind_ok _ _ _ _ _ (pread_some _ _ _ _ Es)).
      destruct (IH (Some c) own (move 1 s) (stacked_on _ _ _ (move_len 1 s) Hs)) as (r & A & B). exists r.
      split; [|exact B]. eapply pg_char; [|exact A]. pose proof (move_goes 1 s) as Hm. rewrite Es in Hm. exact Hm.
  - rewrite (pbind_ok ploc _ s _ _ eq_refl). destruct (IH (p_at s) own s Hs) as (r & A & B). exists r.
    split; [apply pg_loc; exact A|exact B].
  - rewrite (pbind_ok _ _ _ _ _ (peof_none s)). destruct (IH (match p_rest s with [] => true | _ => false end) own s Hs) as (r & A & B). exists r. split; [|exact B].
    eapply pg_eof; [|exact A]. destruct (p_rest s); split; intros H; auto; discriminate.
  - destruct (pprefix_none w s) as [(s' & Hg & Hp)|(Hg & Hp)]; rewrite (pbind_ok _ _ _ _ _ Hp);
      match type of Hp with _ = (Ok ?b, _) => destruct (IH b own s Hs) as (r & A & B) end; exists r; (split; [|exact B]).
    + eapply pg_prefix; [|exact A]. split; [|reflexivity]. intros _. destruct Hg as (Hg & _). eauto.
    + eapply pg_prefix; [|exact A]. split; [discriminate|]. intros (t & Ht). exfalso.
      apply (Hg (Pst t (loc_push_str (p_at s) w))). apply goes_push. auto.
  - rewrite (pbind_ok _ _ _ _ _ (ppeek_none n s)). destruct (IH (firstn n (p_rest s)) own s Hs) as (r & A & B). exists r. split; [|exact B].
    destruct (move_within n s). eapply pg_peek; [apply (move_goes n s)| | |exact A]; auto.
  - unfold pskip_any. erewrite pbind_ok. 2:{ rewrite (pbind_ok _ _ _ _ _ (ppeek_loop_none n s)). reflexivity. }
    destruct (IH (length (firstn n (p_rest s))) own (move n s) (stacked_on _ _ _ (move_len n s) Hs)) as (r & A & B). exists r. split; [|exact B].
    destruct (move_within n s). eapply pg_skip; [apply (move_goes n s)| | |exact A]; auto.
  - rewrite (pbind_ok pget _ s _ _ eq_refl). destruct (IH (s :: own) s) as (r & A & B); [cbn; auto|]. exists r. split; [constructor; exact A|exact B].
  - destruct (skipn i own) as [|t older] eqn:Ei.
    + destruct (IH 0 own s Hs) as (r & A & B). exists r. split; [|exact B]. apply pg_no_reset; [|exact A].
      pose proof (f_equal (@length _) Ei) as H. rewrite skipn_length in H. cbn in H. lia.
    + rewrite (pbind_ok pget _ s _ _ eq_refl), (pbind_ok (pput t) _ s tt t eq_refl). destruct (stacked_skip _ _ _ _ _ Hs Ei) as (H1 & H2).
      destruct (IH (length (p_rest t) - length (p_rest s)) older t H2) as (r & A & B). exists r. split; [|exact B].
      apply skipn_split in Ei as (newer & -> & <-). eapply pg_reset; [|exact A]. lia.
  - destruct (skipn i own) as [|t older] eqn:Ei.
    + destruct (IH own s Hs) as (r & A & B). exists r. split; [|exact B]. apply pg_no_unmark; [|exact A].
      pose proof (f_equal (@length _) Ei) as H. rewrite skipn_length in H. cbn in H. lia.
    + destruct (stacked_skip _ _ _ _ _ Hs Ei) as (H1 & H2).
      destruct (IH older s (stacked_on _ _ _ H1 H2)) as (r & A & B). exists r. split; [|exact B].
      apply skipn_split in Ei as (newer & -> & <-). apply pg_unmark. exact A.
Qed.
Lemma sprog_none : forall p s, exists r, programmed [] p s r /\ scan_is (prun_sprog None p [] s) r.
Proof. intros p s. apply sprog_own_none. exact I. Qed.
Lemma scan_none : forall f sc def s, fst (pspecial_scan None f sc def s) = OutOfFuel /\ f <= length (p_rest s) \/
  exists r, scanned sc def s r /\ scan_is (pspecial_scan None f sc def s) r.
Proof.
  intros f [c|pred mn mx|re fi|sy pr] def s; cbn [pspecial_scan].
  - right. eexists. split; [constructor|reflexivity].
  - unfold pchars_scan. rewrite (pbind_ok pget _ s _ _ eq_refl), (pbind_ok ploc _ s _ _ eq_refl).
    pose proof (chars_loop_run pred mx f 0%N s ltac:(intros; lia)) as H.
    destruct (pchars_loop None f pred mx 0%N s) as ([w|e|p|] & s') eqn:Eq; try contradiction.
    + right. rewrite (pbind_ok _ _ _ _ _ Eq).
      replace (lower mx 0) with mx in H by (destruct mx; cbn; rewrite ?N.sub_0_r; reflexivity).
      destruct mn as [m|].
      * destruct (N.ltb_spec (N.of_nat (length w)) m) as [Hl|Hl].
        -- eexists. split; [eapply sn_chars_no; [exact H|exists m; auto]|reflexivity].
        -- eexists. split; [eapply sn_chars; [exact H|]|reflexivity]. intros (m' & [= <-] & Hlt). lia.
      * eexists. split; [eapply sn_chars; [exact H|]|reflexivity]. intros (m' & Hx & _). discriminate.
    + left. rewrite (pbind_fuel _ _ _ _ Eq). auto.
  - right. unfold pregex_scan. rewrite (pbind_ok ploc _ s _ _ eq_refl), (pbind_ok _ _ _ _ _ (ppeek_none _ s)).
    change (firstn (S regex_max) (p_rest s)) with (window s).
    destruct (fi (window s)) as [([|k] & len)|] eqn:Ef.
    + cbv zeta. destruct (Nat.ltb_spec regex_max (length (firstn len (window s)))) as [Hl|Hl].
      * eexists. split; [eapply sn_regex_long; eauto|reflexivity].
      * rewrite (pbind_ok (pskip _) _ s tt _ eq_refl). eexists. split; [eapply sn_regex; [exact Ef| |exact Hl]|reflexivity].
        apply goes_push. set (w := firstn len (window s)). assert (Hw : exists t, p_rest s = w ++ t).
        { exists (skipn len (window s) ++ skipn 257 (p_rest s)). unfold w. rewrite app_assoc, firstn_skipn. unfold window. symmetry. apply firstn_skipn. }
        destruct Hw as (t & Hw). unfold move. cbn [p_rest p_at]. rewrite Hw.
        rewrite skipn_app, Nat.sub_diag, skipn_all, firstn_app, Nat.sub_diag, firstn_O, app_nil_r, firstn_all. auto.
    + eexists. split; [apply sn_regex_no; congruence|reflexivity].
    + eexists. split; [apply sn_regex_no; congruence|reflexivity].
  - right. destruct (sprog_none (pr def) s) as (r & A & B). exists r. split; [constructor; exact A|exact B].
Qed.
(** Every scanner answers. *)
Lemma scanned_total : forall sc def s, exists r, scanned sc def s r.
Proof.
  intros sc def s. destruct (scan_none (S (length (p_rest s))) sc def s) as [(_ & H)|(r & H & _)]; [lia|]. eauto.
Qed.
