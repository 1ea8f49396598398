(** C89: what a markable reader holds and how it names its marks. *)
From Coq Require Import String List NArith Arith Bool Lia Sorted.
From Verif Require Import Base Io SpecText SpecIo TextFacts TokRun IoFacts SpecGauge GaugeFacts.
Import ListNotations.
Open Scope nat_scope.

Lemma gauge_history : forall debug l0 chunks ending os an r,
  perform debug os (mr_new l0 (Src chunks ending)) = (an, None, r) ->
  exists g, gsteps (concat chunks) g_start os an g /\ csteps (concat chunks) ending l0 (Cur 0 []) os an (Cur (g_pos g) (g_marks g)) /\
    gauged (concat chunks) ending l0 r g.
Proof.
  intros debug l0 chunks ending os an r H. apply (gauge_run _ _ _ debug os (mr_new l0 (Src chunks ending)) g_start an r); [|exact H].
  apply gauge_new; [apply rep_new|reflexivity|reflexivity].
Qed.

(** Every history of calls that return follows the gauge, and its position and marks are
    those of the cursor of C24. *)
Theorem C89_gauge : forall debug l0 chunks ending os an r,
  perform debug os (mr_new l0 (Src chunks ending)) = (an, None, r) ->
  exists g, gsteps (concat chunks) g_start os an g /\ csteps (concat chunks) ending l0 (Cur 0 []) os an (Cur (g_pos g) (g_marks g)).
Proof.
  intros debug l0 chunks ending os an r H. destruct (gauge_history _ _ _ _ _ _ _ H) as (g & A & B & _). exists g. auto.
Qed.
Print Assumptions C89_gauge.

(** The gauge is determined by the calls and their answers. *)
Theorem C89_determined : forall text os an g1 g2, gsteps text g_start os an g1 -> gsteps text g_start os an g2 -> g1 = g2.
Proof. intros text os an g1 g2 H1 H2. exact (gsteps_fun _ _ _ _ _ H1 _ H2). Qed.
Print Assumptions C89_determined.

(** What is held: the buffer has exactly as many characters as the gauge says, and the source
    exactly those the gauge has not seen. *)
Theorem C89_held : forall debug l0 chunks ending os an r g,
  perform debug os (mr_new l0 (Src chunks ending)) = (an, None, r) -> gsteps (concat chunks) g_start os an g ->
  length (ub_buf (mr_ub r)) = g_held g /\ length (concat (s_chunks (mr_src r))) = length (concat chunks) - g_seen g /\
  g_seen g <= length (concat chunks) /\ g_pos g <= g_seen g /\ g_gone g <= g_pos g /\ g_gone g + g_held g <= g_seen g.
Proof.
  intros debug l0 chunks ending os an r g H Hg. destruct (gauge_history _ _ _ _ _ _ _ H) as (g' & A & _ & G).
  rewrite (C89_determined _ _ _ _ _ Hg A) in *. clear g Hg. rename g' into g. pose proof (gauged_le _ _ _ _ _ G) as Hle. destruct G as (base & R & G1 & G2 & G3).
  pose proof (rp_pos _ _ _ _ _ _ R) as P1. pose proof (rp_next _ _ _ _ _ _ R) as P2. pose proof (rp_rest _ _ _ _ _ _ R) as P3. pose proof (rp_len _ _ _ _ _ _ R) as P4.
  cbn [at_gauge c_pos] in *. apply (f_equal (@length _)) in P3. rewrite app_length, !skipn_length in P3. repeat split; try lia.
Qed.
Print Assumptions C89_held.

(** After a history of calls that returned, the next call does not return exactly when the
    build is a debug build and the call takes characters from the source while characters
    are held for no mark; it then panics. *)
Theorem C89_stops : forall debug l0 chunks ending os an r o g,
  perform debug os (mr_new l0 (Src chunks ending)) = (an, None, r) -> gsteps (concat chunks) g_start os an g ->
  ((exists r', perform1 debug o r = (Panic PDebugAssert, r')) <-> debug = true /\ unguarded (concat chunks) g o) /\
  ((exists a r', perform1 debug o r = (Ok a, r')) <-> ~ (debug = true /\ unguarded (concat chunks) g o)).
Proof.
  intros debug l0 chunks ending os an r o g H Hg. destruct (gauge_history _ _ _ _ _ _ _ H) as (g' & A & _ & G).
  rewrite (C89_determined _ _ _ _ _ Hg A) in *. clear g Hg. rename g' into g.
  pose proof (gauge_stops _ _ _ debug o r g G) as S. destruct (rep_step _ _ _ debug o r _ (gauged_rep _ _ _ _ _ G)) as [(a & r' & c' & K & _)|(r' & K & _)]; rewrite K in *; cbn [fst] in S.
  - assert (Hn : ~ (debug = true /\ unguarded (concat chunks) g o)). { intros Z. apply (proj2 S Z a). reflexivity. }
    split; split.
    + intros (x & Hx). discriminate.
    + intros Z. contradiction.
    + intros _. exact Hn.
    + intros _. exists a, r'. reflexivity.
  - assert (Hy : debug = true /\ unguarded (concat chunks) g o). { apply S. discriminate. }
    split; split.
    + intros _. exact Hy.
    + intros _. exists r'. reflexivity.
    + intros (a & x & Hx). discriminate.
    + intros Z. contradiction.
Qed.
Print Assumptions C89_stops.

(** Two marks of a history have the same identifier exactly when the reader went on, from the
    first to the second, by as much as was given up between. *)
Lemma gsteps_split : forall T os1 an1 g os2 an2 g', gsteps T g (os1 ++ os2) (an1 ++ an2) g' -> length os1 = length an1 ->
  exists g1, gsteps T g os1 an1 g1 /\ gsteps T g1 os2 an2 g'.
Proof.
  intros T os1. induction os1 as [|o os1 IH]; intros [|a an1] g os2 an2 g' H Hl; try discriminate.
  - exists g. split; [constructor|exact H].
  - cbn [app] in H. inversion H; subst. injection Hl as Hl. match goal with K : gsteps _ _ (os1 ++ os2) _ _ |- _ => destruct (IH _ _ _ _ _ K Hl) as (g2 & A & B) end.
    exists g2. split; [econstructor; eassumption|exact B].
Qed.
Lemma gone_grows_step : forall T g o a g', gstep T g o a g' -> g_gone g <= g_gone g'.
Proof.
  assert (H : forall k g, g_gone g <= g_gone (read_on k g)).
  { intros k g. unfold read_on. destruct (k =? 0); [lia|]. destruct (g_marks g); [|cbn; lia].
    destruct (g_pos g =? g_seen g); [cbn; lia|]. destruct (g_pos g + k <? g_seen g); cbn; lia. }
  intros T g o a g' K. destruct K; try apply H; try (cbn; lia).
  - exact (H _ (with_mark g)).
  - exact (H _ (with_mark g)).
Qed.
Lemma gone_grows : forall T g os an g', gsteps T g os an g' -> g_gone g <= g_gone g'.
Proof. induction 1 as [|? ? ? ? ? ? ? H1 _ IH]; [lia|]. pose proof (gone_grows_step _ _ _ _ _ H1). lia. Qed.
Lemma perform_before : forall debug os1 os2 r an1 an2 r', perform debug (os1 ++ os2) r = (an1 ++ an2, None, r') -> length os1 = length an1 ->
  exists r1, perform debug os1 r = (an1, None, r1).
Proof.
  intros debug os1 os2 r an1 an2 r' H Hl. destruct (perform_app _ _ _ _ _ _ H) as (b1 & b2 & r1 & A & B & C & _).
  exists r1. replace an1 with b1; [exact C|]. apply (f_equal (firstn (length os1))) in A.
  rewrite Hl in A at 1. rewrite firstn_app, firstn_all, Nat.sub_diag, firstn_O, app_nil_r in A. rewrite <- B, firstn_app, firstn_all, Nat.sub_diag, firstn_O, app_nil_r in A. auto.
Qed.
Theorem C89_identifiers : forall debug l0 chunks ending os1 os2 an1 an2 m1 m2 r g1 g2,
  perform debug (os1 ++ OMark :: os2 ++ [OMark]) (mr_new l0 (Src chunks ending)) = (an1 ++ AId m1 :: an2 ++ [AId m2], None, r) ->
  length os1 = length an1 -> length os2 = length an2 ->
  gsteps (concat chunks) g_start os1 an1 g1 -> gsteps (concat chunks) g_start (os1 ++ OMark :: os2) (an1 ++ AId m1 :: an2) g2 ->
  m1 = N.of_nat (g_pos g1 - g_gone g1) /\ m2 = N.of_nat (g_pos g2 - g_gone g2) /\ g_gone g1 <= g_gone g2 /\
  (m1 = m2 <-> g_pos g2 = g_pos g1 + (g_gone g2 - g_gone g1)).
Proof.
  intros debug l0 chunks ending os1 os2 an1 an2 m1 m2 r g1 g2 H L1 L2 G1 G2.
  destruct (C89_gauge _ _ _ _ _ _ _ H) as (g & A & _).
  destruct (gsteps_split _ _ _ _ _ _ _ A L1) as (g1' & A1 & A2). rewrite (C89_determined _ _ _ _ _ A1 G1) in *. clear g1' A1.
  assert (A3 : gsteps (concat chunks) g_start ((os1 ++ OMark :: os2) ++ [OMark]) ((an1 ++ AId m1 :: an2) ++ [AId m2]) g).
  { rewrite <- !app_assoc. exact A. }
  assert (L3 : length (os1 ++ OMark :: os2) = length (an1 ++ AId m1 :: an2)) by (rewrite !app_length; cbn; lia).
  destruct (gsteps_split _ _ _ _ _ _ _ A3 L3) as (g2' & B1 & B2). rewrite (C89_determined _ _ _ _ _ B1 G2) in *. clear g2' B1 A3.
  assert (E1 : m1 = mark_id g1).
  { inversion A2 as [|? ? ? ? ? ? ? K1 _]; subst. inversion K1; subst; try reflexivity; try contradiction. }
  assert (E2 : m2 = mark_id g2).
  { inversion B2 as [|? ? ? ? ? ? ? K1 _]; subst. inversion K1; subst; try reflexivity; try contradiction. }
  assert (Hgone : g_gone g1 <= g_gone g2).
  { destruct (gsteps_split _ _ _ _ _ _ _ G2 L1) as (g1' & C1 & C2). rewrite (C89_determined _ _ _ _ _ C1 G1) in C2. exact (gone_grows _ _ _ _ _ C2). }
  destruct (perform_before _ _ _ _ _ _ _ H L1) as (r1 & P1).
  assert (H' : perform debug ((os1 ++ OMark :: os2) ++ [OMark]) (mr_new l0 (Src chunks ending)) = ((an1 ++ AId m1 :: an2) ++ [AId m2], None, r)).
  { rewrite <- !app_assoc. exact H. }
  destruct (perform_before _ _ _ _ _ _ _ H' L3) as (r2 & P2).
  destruct (C89_held _ _ _ _ _ _ _ _ P1 G1) as (_ & _ & _ & _ & Q1 & _). destruct (C89_held _ _ _ _ _ _ _ _ P2 G2) as (_ & _ & _ & _ & Q2 & _).
  unfold mark_id in E1, E2. repeat split; try assumption; subst m1 m2; intros; lia.
Qed.
Print Assumptions C89_identifiers.

(** The history of C26 through the gauge: after the reset one character is held; reading it
    gives it up, and the next place has the identifier of the first one. *)
Example C89_reused :
  gsteps [97; 98; 99]%N g_start [OMark; ORead 1; OReset 0%N; ORead 1] [AId 0%N; AText [97%N]; ACount 1; AText [97%N]] (Gauge 1 [] 1 0 1) /\
  mark_id (Gauge 1 [] 1 0 1) = 0%N.
Proof.
  split; [|reflexivity]. eapply gss_cons; [apply gs_mark|]. eapply gss_cons; [apply gs_read|].
  eapply gss_cons; [apply (gs_reset _ (Gauge 1 [(0%N, 0)] 1 1 0) 0%N 0 [] []); [reflexivity|intros []|cbn; lia]|]. eapply gss_cons; [apply (gs_read _ (Gauge 0 [] 1 1 0) 1 [97%N])|]. apply gss_nil.
Qed.
(** The history of C25: one character is held for no mark. *)
Example C89_unguarded :
  gsteps [97; 98]%N g_start [OMark; ORead 1; OUnmark 0%N] [AId 0%N; AText [97%N]; ADone] (Gauge 1 [] 1 1 0) /\
  unguarded [97; 98]%N (Gauge 1 [] 1 1 0) (ORead 1) /\
  snd (fst (perform true ([OMark; ORead 1; OUnmark 0%N] ++ [ORead 1]) (mr_of_text (loc_new []) [97; 98]%N))) = Some (Panic PDebugAssert).
Proof.
  split; [|split; [|vm_compute; reflexivity]].
  - eapply gss_cons; [apply gs_mark|]. eapply gss_cons; [apply gs_read|].
    eapply gss_cons; [apply (gs_unmark _ (Gauge 1 [(0%N, 0)] 1 1 0) 0%N 0 [] []); [reflexivity|intros []]|]. apply gss_nil.
  - split; [reflexivity|]. cbn. lia.
Qed.
(** Two marks with the same identifier: the second one character on, one given up. *)
Example C89_identifiers_case :
  fst (perform false ([] ++ OMark :: [ORead 1; OReset 0%N; ORead 1] ++ [OMark]) (mr_new (loc_new []) (Src [[97; 98; 99]%N] None)))
  = ([] ++ AId 0%N :: [AText [97%N]; ACount 1; AText [97%N]] ++ [AId 0%N], None).
Proof. vm_compute. reflexivity. Qed.
