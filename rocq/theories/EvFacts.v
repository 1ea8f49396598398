(** Facts about the big-step semantics. *)
From Coq Require Import String List NArith Arith Bool Lia.
From Verif Require Import Base Ident Ast Graph SpecText SpecSyntax TextFacts SyntaxFacts SpecParse Pure PureFacts ParseFacts.
Import ListNotations.
Open Scope nat_scope.

Lemma names_unique : forall rules id r r', no_repeat rules -> names rules id r -> names rules id r' -> r = r'.
Proof.
  intros rules id r r' Hn (H1 & S1) (H2 & S2). apply same_name_keyed in S1, S2.
  apply In_nth_error in H1 as (i & Hi). apply In_nth_error in H2 as (j & Hj).
  destruct (lt_eq_lt_dec i j) as [[L|E]|L].
  - exfalso. apply (Hn j i r' r). repeat split; auto. apply same_name_keyed. congruence.
  - congruence.
  - exfalso. apply (Hn i j r r'). repeat split; auto. apply same_name_keyed. congruence.
Qed.

Lemma programmed_moved : forall own p s r, programmed own p s r -> forall s0, Forall (moved s0) own -> moved s0 s ->
  match r with SMatch s' _ | SForward _ s' => moved s0 s' | _ => True end.
Proof.
  induction 1 as [own r s|own e s|own k c s s' r Hg Hp IH|own k s r Hn Hp IH|own k s r Hp IH
    |own k b s r Hb Hp IH|own w k b s r Hb Hp IH|own n k w s s' r Hg Hl Hf Hp IH|own n k w s s' r Hg Hl Hf Hp IH
    |own k s r Hp IH|newer s' older k n s r Hc Hp IH|newer s' older k s r Hp IH|own i k s r Hi Hp IH|own i k s r Hi Hp IH];
    intros s0 Ho Hm; try exact I; try (apply IH; assumption).
  - destruct r; cbn; auto.
  - apply IH; [exact Ho|]. eapply moved_trans; [exact Hm|]. eexists. exact Hg.
  - apply IH; [exact Ho|]. eapply moved_trans; [exact Hm|]. eexists. exact Hg.
  - apply IH; [|exact Hm]. constructor; assumption.
  - apply Forall_app in Ho as (_ & Ho). inversion Ho; subst. apply IH; assumption.
  - apply Forall_app in Ho as (_ & Ho). inversion Ho; subst. apply IH; assumption.
Qed.
Lemma scanned_moved : forall sc def s r, scanned sc def s r -> match r with SMatch s' _ | SForward _ s' => moved s s' | _ => True end.
Proof.
  intros sc def s r H. destruct H; auto using moved_refl.
  - destruct H as (H & _). eexists. exact H.
  - eexists. eassumption.
  - eapply programmed_moved; [exact H|constructor|apply moved_refl].
Qed.
(** Matching and failing move forward; a failure is located between the place where the
    reader was and the end of the text. *)
Definition forth (s : pst) (o : outcome) : Prop :=
  match o with
  | Match s' _ => moved s s'
  | No x s' _ => moved s s' /\ exists s2, moved s s2 /\ p_at s2 = e_loc x
  | Halt _ => True
  end.
Lemma forth_step : forall s s1 o, moved s s1 -> forth s1 o -> forth s o.
Proof.
  intros s s1 [s' e|l s' e|h] H; cbn; eauto using moved_trans.
  intros (H1 & s2 & H2 & H3). split; [eauto using moved_trans|]. exists s2. eauto using moved_trans.
Qed.
Lemma ev_moved : forall rules cfg n s o, ev rules cfg n s o -> forth s o.
Proof.
  intros rules cfg n s o H. induction H; cbn; auto using moved_refl; try (cbn in *; tauto);
    try (split; [apply moved_refl|exists s; split; [apply moved_refl|reflexivity]]; fail);
    try (apply scanned_moved in H; exact H);
    try (apply scanned_moved in H; cbn in *; intuition eauto using moved_trans; fail);
    try (cbn in *; intuition eauto using moved_trans, moved_refl; fail).
  - eexists. eassumption.
  - eapply (forth_step s s' (No x s2 [])); eauto.
  - destruct o as [s2 e|l s2 e|h]; cbn [before]; eapply forth_step in IHev2; eauto.
  - cbn in *. split; [apply moved_refl|]. destruct IHev1 as (_ & A). destruct IHev2 as (_ & B). unfold further. destruct (loc_ltb (e_loc x2) (e_loc x)); auto.
Qed.
Section Ev.
Variable rules : list rule.
Variable cfg : config.
Hypothesis Hn : no_repeat rules.
Hypothesis Hd : no_dollar rules.
Notation ev := (ev rules cfg).
Lemma names_dollar : forall id r r', names rules id r -> In r' rules -> dollar id r' -> False.
Proof.
  intros id r r' (H1 & S1) H2 S2. apply (Hd r (r_id r') H1). unfold dollar in S2. apply same_name_keyed in S1, S2. apply same_name_keyed. congruence.
Qed.
Lemma dollar_unique : forall id r r', In r rules -> dollar id r -> In r' rules -> dollar id r' -> r = r'.
Proof.
  intros id r r' H1 S1 H2 S2. unfold dollar in *. apply same_name_keyed in S1, S2.
  assert (E : keyed (r_id r) = keyed (r_id r')). { change (keyed (36%N :: r_id r)) with (36%N :: keyed (r_id r)) in S1. change (keyed (36%N :: r_id r')) with (36%N :: keyed (r_id r')) in S2. congruence. }
  apply (names_unique rules (r_id r)); auto; split; auto; apply same_name_keyed; auto.
Qed.

Ltac use_ih :=
  repeat match goal with
  | IH : forall o, ev ?n ?s o -> _ = o, K : ev ?n ?s _ |- _ => apply IH in K; try discriminate K
  | K : Match _ _ = Match _ _ |- _ => injection K as K; subst
  | K : No _ _ _ = No _ _ _ |- _ => injection K as K; subst
  | K : Halt _ = Halt _ |- _ => injection K as K; subst
  end; subst.
Ltac scan_clash :=
  match goal with A : scanned ?c ?l ?s ?r1, B : scanned ?c ?l ?s ?r2 |- _ =>
    let E := fresh in pose proof (scanned_fun _ _ _ _ _ A B) as E; try discriminate E; injection E as E; subst; clear B end.
Ltac same_rule :=
  match goal with A : names rules ?id ?r, B : names rules ?id ?r' |- _ =>
    first [constr_eq r r'; fail 1 | pose proof (names_unique _ _ _ _ Hn A B); subst r'; clear B] end.

Lemma fwd_known : forall id s o, ev (NFwd id) s o -> ~ defined rules id -> (forall r, In r rules -> ~ dollar id r) -> False.
Proof.
  intros id s o H H1 H2. inversion H; subst.
  - apply H1. match goal with R : names rules _ _ |- _ => destruct R; eexists; eauto end.
  - eapply H2; eauto.
Qed.
Ltac same_word :=
  repeat match goal with A : goes ?s ?w1 ?s', B : goes ?s ?w2 ?s' |- _ =>
    first [constr_eq w1 w2; fail 1 | let E := fresh in pose proof (goes_word _ _ _ _ A B) as E; subst w2; clear B] end.
(** The semantics is deterministic. *)
Lemma ev_fun : forall n s o1, ev n s o1 -> forall o2, ev n s o2 -> o1 = o2.
Proof.
  intros n s o1 H. induction H; intros o2 Hev2; inversion Hev2; subst; try reflexivity; try congruence; try lia;
    try (exfalso; match goal with K : forall s', ~ goes ?s ?w s' |- _ => eapply K; eassumption end);
    try (match goal with A : goes ?s ?w ?a, B : goes ?s ?w ?b |- _ => rewrite (goes_fun _ _ _ _ A B); reflexivity end);
    try scan_clash; try same_rule; try (exfalso; eapply fwd_known; eassumption);
    try (match goal with K : SpecParse.ev rules cfg (NAlts []) _ _ |- _ => inversion K end);
    try (exfalso; eapply names_dollar; eassumption);
    use_ih; try reflexivity; try lia; try congruence;
    try (exfalso; match goal with K : ~ defined rules _ |- _ => apply K; match goal with R : names rules _ _ |- _ => destruct R; eexists; eauto end end).
  all: same_word; use_ih; try congruence.
  all: try (exfalso; match goal with K : max_count = max_count -> _ |- _ => apply K; auto; fail end).
  all: try (exfalso; match goal with K : (exists _ _, _ = _ /\ _) \/ _ |- _ => destruct K as [(? & ? & E & ?)|(? & ? & ? & E)]; [injection E as ? ?; subst; congruence|discriminate E] end).
  all: try (exfalso; match goal with K : (exists _ _, _ = _ /\ _) \/ _ |- _ => destruct K as [(? & ? & E & ?)|(? & ? & ? & E)]; discriminate E end).
  - apply IHev. congruence.
  - match goal with A : dollar id ?a, B : dollar id ?b |- _ => assert (a = b) by (eapply dollar_unique; eauto); subst end. apply IHev. assumption.
Qed.
End Ev.

Section Shapes.
Variable rules : list rule.
Variable cfg : config.
Notation ev := (ev rules cfg).
Lemma exact_rounds : forall b n i s s' e, n <> max_count -> (i <= n)%N ->
  (ev (NTimes n n i b) s (Match s' e) <-> rounds rules cfg b (N.to_nat (n - i)) s s' e).
Proof.
  intros b n i s s' e Hn Hi. split.
  - intros H. remember (NTimes n n i b) as nd eqn:En. remember (Match s' e) as o eqn:Eo. revert i Hi s' e En Eo.
    induction H; intros i0 Hi0 s9 e9 En Eo; try discriminate; injection En; intros; subst; try discriminate.
    + injection Eo as <- <-. replace (n - i0)%N with 0%N by lia. constructor.
    + lia.
    + injection Eo as <- <-. replace (N.to_nat (n - i0)) with (S (N.to_nat (n - (i0 + 1)))) by lia.
      econstructor; [eassumption|]. apply IHev2; auto. lia.
  - intros H. remember (N.to_nat (n - i)) as k eqn:Ek. revert i Hi Ek. induction H as [s|k s s1 s2 e1 e2 H1 H2 IH]; intros i Hi Ek.
    + apply ev_times_end. lia.
    + eapply ev_times_more; [lia|congruence|exact H1|]. apply IH; lia.
Qed.
Lemma factor_rounds : forall n p s s' e, n <> max_count ->
  (ev (NFactor (Factor n p)) s (Match s' e) <-> rounds rules cfg (NPrim p) (N.to_nat n) s s' e).
Proof.
  intros n p s s' e Hn. destruct (N.eq_dec n 1) as [->|H1].
  - split.
    + intros H. inversion H; subst; [|congruence]. change (N.to_nat 1) with 1. rewrite <- (app_nil_r e). econstructor; [eassumption|constructor].
    + intros H. change (N.to_nat 1) with 1 in H. inversion H; subst. match goal with K : rounds _ _ _ 0 _ _ _ |- _ => inversion K; subst end.
      rewrite app_nil_r. constructor. assumption.
  - rewrite <- (N.sub_0_r n) at 2. rewrite <- exact_rounds; [|exact Hn|lia]. split.
    + intros H. inversion H; subst; [congruence|]. assumption.
    + intros H. apply ev_factor_many; auto.
Qed.
Lemma optional_iff : forall l d s s' e, ev (NPrim (POptional l d)) s (Match s' e) <->
  ev (NDefs d) s (Match s' e) \/ (s' = s /\ exists l2 s2, ev (NDefs d) s (No l2 s2 e)).
Proof.
  intros l d s s' e. split.
  - intros H. inversion H; subst. match goal with K : SpecParse.ev _ _ (NTimes _ _ _ _) _ _ |- _ => inversion K; subst end; try lia.
    + right. split; [reflexivity|eauto].
    + match goal with K : SpecParse.ev _ _ (NTimes _ _ (0 + 1) _) _ _ |- _ => inversion K; subst end; try lia. rewrite app_nil_r. left. assumption.
  - intros [H|(-> & l2 & s2 & H)]; constructor.
    + rewrite <- (app_nil_r e). eapply ev_times_more; [lia|intros Z; discriminate Z|exact H|]. apply ev_times_end. lia.
    + eapply ev_times_stop; [lia|lia|exact H].
Qed.
Lemma strides_iff : forall b i s s' e, (i <= max_count)%N ->
  (ev (NTimes 0 max_count i b) s (Match s' e) <->
   exists k e1, strides rules cfg b k s s' e1 /\
     ((i + N.of_nat k = max_count /\ e = e1)%N \/
      ((i + N.of_nat k < max_count)%N /\ exists l s2 e2, ev b s' (No l s2 e2) /\ e = e1 ++ e2))).
Proof.
  intros b i s s' e Hi. split.
  - intros H. remember (NTimes 0 max_count i b) as nd eqn:En. remember (Match s' e) as o eqn:Eo. revert i Hi s' e En Eo.
    induction H; intros i0 Hi0 s9 e9 En Eo; try discriminate; injection En; intros; subst; try discriminate.
    + injection Eo as <- <-. exists 0, []. split; [constructor|]. left. split; [lia|reflexivity].
    + injection Eo as <- <-. exists 0, []. split; [constructor|]. right. split; [lia|]. eauto 6.
    + injection Eo as <- <-. destruct (IHev2 (i0 + 1)%N ltac:(lia) s2 evs2 eq_refl eq_refl) as (k & e1 & Hk & Hc).
      exists (S k), (evs ++ e1). split; [econstructor; eauto|]. destruct Hc as [(Hc & ->)|(Hc & l & s3 & e2 & H3 & ->)].
      * left. split; [lia|reflexivity].
      * right. split; [lia|]. exists l, s3, e2. rewrite app_assoc. auto.
  - intros (k & e1 & Hk & Hc). revert i Hi e Hc. induction Hk as [s|k s s1 s2 e1 e2 H1 Hm H2 IH]; intros i Hi e Hc.
    + destruct Hc as [(Hc & ->)|(Hc & l & s3 & e2 & H3 & ->)].
      * apply ev_times_end. lia.
      * eapply ev_times_stop; [lia|lia|]. exact H3.
    + destruct Hc as [(Hc & ->)|(Hc & l & s3 & e3 & H3 & ->)].
      * eapply ev_times_more; [lia|intros _; exact Hm|exact H1|]. apply IH; [lia|]. left. split; [lia|reflexivity].
      * rewrite <- app_assoc. eapply ev_times_more; [lia|intros _; exact Hm|exact H1|]. apply IH; [lia|]. right. split; [lia|]. eauto 6.
Qed.
Lemma strides_livelock : forall b k s s1 e i, strides rules cfg b k s s1 e -> forall s2 e2, ev b s1 (Match s2 e2) -> p_at s2 = p_at s1 ->
  (i + N.of_nat k < max_count)%N -> ev (NTimes 0 max_count i b) s (Halt (Failed (Error_ (p_at s1) MLivelock))).
Proof.
  intros b k s s1 e i H. revert i. induction H as [s|k s s1 s2 e1 e2 H1 Hm H2 IH]; intros i s3 e3 H3 He Hi.
  - eapply ev_times_livelock; [lia|reflexivity|exact H3|exact He].
  - eapply ev_times_more_halt; [lia|intros _; exact Hm|exact H1|]. eapply IH; [exact H3|exact He|lia].
Qed.
Lemma repeated_ends : forall b n i s, length (p_rest s) <= n -> (forall s', moved s s' -> exists o, ev b s' o) -> exists o, ev (NTimes 0 max_count i b) s o.
Proof.
  intros b. induction n as [|n IH]; intros i s Hn H.
  all: destruct (N.lt_ge_cases i max_count) as [Hi|Hi]; [|eexists; apply ev_times_end; exact Hi].
  all: destruct (H s (moved_refl s)) as ([s1 e1|l s1 e1|h] & H1); [|eexists; eapply ev_times_stop; eauto; lia|eexists; eapply ev_times_halt; eauto].
  all: destruct (loc_eqb (p_at s1) (p_at s)) eqn:El; [apply loc_eqb_eq in El; eexists; eapply ev_times_livelock; eauto|].
  all: assert (Hne : p_at s1 <> p_at s) by (intros E; rewrite E, loc_eqb_refl in El; discriminate).
  all: pose proof (ev_moved _ _ _ _ _ H1) as Hm; cbn in Hm.
  all: assert (Hlt : length (p_rest s1) < length (p_rest s)).
  1,3: destruct Hm as (w & Hw); pose proof Hw as (Hr & _); rewrite Hr, app_length; destruct w; [|cbn; lia];
       exfalso; apply Hne; rewrite (goes_fun _ _ _ _ Hw (goes_nil s)); reflexivity.
  - lia.
  - destruct (IH (i + 1)%N s1 ltac:(lia)) as (o & Ho); [intros s' Hs'; apply H; eauto using moved_trans|].
    destruct o as [s2 e2|l s2 e2|h].
    + eexists. eapply ev_times_more; eauto.
    + exfalso. remember (NTimes 0 max_count (i + 1) b) as nd eqn:En. remember (No l s2 e2) as oo eqn:Eo. revert En Eo. clear -Ho. generalize (i + 1)%N.
      intros j. revert l s2 e2 j. induction Ho; intros; try discriminate; injection En; intros; subst; try discriminate; try lia. eapply IHHo2; reflexivity.
    + eexists. eapply ev_times_more_halt; eauto.
Qed.
Lemma alts_match : forall ds s s' e, ev (NAlts ds) s (Match s' e) <->
  exists pre d post, ds = pre ++ d :: post /\ Forall (fun d => fails rules cfg (NSeq d) s) pre /\ ev (NSeq d) s (Match s' e).
Proof.
  intros ds s s' e. split.
  - revert s' e. induction ds as [|d ds IH]; intros s' e H; inversion H; subst.
    + exists [], d, ds. auto.
    + destruct (IH _ _ ltac:(eassumption)) as (pre & d' & post & -> & Hp & Hd'). exists (d :: pre), d', post. split; [reflexivity|]. split; [|exact Hd'].
      constructor; [|exact Hp]. unfold fails. eauto.
  - intros (pre & d & post & -> & Hp & Hd'). induction Hp as [|p pre (l & s2 & e2 & H) Hp IH]; cbn.
    + apply ev_alts_first. exact Hd'.
    + eapply ev_alts_next; eauto.
Qed.
Lemma defs_alts : forall d1 d2 ds s s' e, ev (NDefs (d1 :: d2 :: ds)) s (Match s' e) <-> ev (NAlts (d1 :: d2 :: ds)) s (Match s' e).
Proof. intros. split; intros H; [inversion H; subst; assumption|constructor; exact H]. Qed.
Lemma defs_match : forall ds s s' e, ev (NDefs ds) s (Match s' e) <->
  exists pre d post, ds = pre ++ d :: post /\ Forall (fun d => fails rules cfg (NSeq d) s) pre /\ ev (NSeq d) s (Match s' e).
Proof.
  intros [|d1 [|d2 ds]] s s' e.
  - split; [intros H; inversion H|]. intros (pre & d & post & Z & _). destruct pre; discriminate.
  - split.
    + intros H. inversion H; subst. exists [], d1, []. auto.
    + intros (pre & d & post & Z & _ & H). destruct pre as [|p [|]]; try discriminate. injection Z as -> <-. constructor. exact H.
  - rewrite defs_alts. apply alts_match.
Qed.
Lemma last_furthest_cons : forall x e es, last_furthest e es -> last_furthest (further e x) (x :: es).
Proof.
  intros x e es (b & a & -> & Hb & Ha). unfold further. destruct (loc_ltb (e_loc e) (e_loc x)) eqn:E.
  - apply loc_ltb_cmp in E. exists [], (b ++ e :: a). split; [reflexivity|]. split; [constructor|].
    assert (K : forall y, loc_cmp (e_loc y) (e_loc e) <> Gt -> loc_cmp (e_loc y) (e_loc x) = Lt).
    { intros y Hy. destruct (loc_cmp (e_loc y) (e_loc e)) eqn:Ey; [apply loc_cmp_eq in Ey; rewrite Ey; exact E| |contradiction].
      exact (loc_cmp_lt_trans _ _ _ Ey E). }
    apply Forall_app. split; [eapply Forall_impl; [exact K|exact Hb]|]. constructor; [exact E|].
    eapply Forall_impl; [|exact Ha]. intros y Hy. apply K. rewrite Hy. discriminate.
  - exists (x :: b), a. split; [reflexivity|]. split; [|exact Ha]. constructor; [|exact Hb]. intros Hg. rewrite loc_cmp_antisym in Hg.
    destruct (loc_cmp (e_loc e) (e_loc x)) eqn:El; try discriminate. apply loc_ltb_cmp in El. congruence.
Qed.
Lemma last_furthest_greatest : forall e es, last_furthest e es -> greatest (e_loc e) (map e_loc es).
Proof.
  intros e es (b & a & -> & Hb & Ha). rewrite map_app. cbn [map]. split; [apply in_elt|]. apply Forall_app. split.
  - apply Forall_map. exact Hb.
  - constructor; [rewrite (proj2 (loc_cmp_eq _ _) eq_refl); discriminate|]. apply Forall_map. eapply Forall_impl; [|exact Ha]. intros y Hy Hg. cbn in Hy. congruence.
Qed.
Lemma alts_no : forall ds s x s' e, ev (NAlts ds) s (No x s' e) -> s' = s /\ e = [] /\
  exists xs, Forall2 (fun d x => fails_with rules cfg (NSeq d) s x) ds xs /\ last_furthest x xs.
Proof.
  induction ds as [|d ds IH]; intros s x s' e H; inversion H; subst.
  - split; [reflexivity|]. split; [reflexivity|]. exists [x]. split.
    + constructor; [|constructor]. unfold fails_with. eauto.
    + exists [], []. repeat split; constructor.
  - split; [reflexivity|]. split; [reflexivity|]. destruct (IH _ _ _ _ ltac:(eassumption)) as (_ & _ & ls & HF & Hg). eexists. split.
    + constructor; [|exact HF]. unfold fails_with. eauto.
    + apply last_furthest_cons. exact Hg.
Qed.
(** What the error of a choice is. *)
Lemma defs_no : forall ds s x s' e, ev (NDefs ds) s (No x s' e) ->
  exists xs y, Forall2 (fun d x => fails_with rules cfg (NSeq d) s x) ds xs /\ last_furthest y xs /\
    x = (if Nat.leb 2 (length ds) && loc_eqb (e_loc y) (p_at s) then wanted s (defs_name cfg ds) else y)%bool.
Proof.
  intros [|d1 [|d2 ds]] s x s' e H.
  - inversion H.
  - inversion H; subst. exists [x], x. split; [constructor; [|constructor]; unfold fails_with; eauto|]. split; [|reflexivity]. exists [], []. repeat split; constructor.
  - cbn [length Nat.leb andb]. inversion H; subst; match goal with K : SpecParse.ev _ _ (NAlts _) _ _ |- _ => apply alts_no in K as (-> & -> & xs & HF & HL) end; eexists xs, _; (split; [exact HF|]; split; [exact HL|]).
    + match goal with K : e_loc _ = p_at _ |- _ => rewrite K, loc_eqb_refl end. reflexivity.
    + destruct (loc_eqb (e_loc x) (p_at s)) eqn:E; [apply loc_eqb_eq in E; contradiction|reflexivity].
Qed.
(** A choice of several definitions has an outcome when its alternatives have. *)
Lemma defs_has : forall d1 d2 ds s o, ev (NAlts (d1 :: d2 :: ds)) s o -> exists o', ev (NDefs (d1 :: d2 :: ds)) s o'.
Proof.
  intros d1 d2 ds s [s' e|x s' e|h] H; [eexists; apply ev_defs; exact H| |eexists; apply ev_defs_halt; exact H].
  destruct (loc_eqb (e_loc x) (p_at s)) eqn:El.
  - apply loc_eqb_eq in El. eexists. eapply ev_defs_here; eauto.
  - eexists. eapply ev_defs_ahead; [exact H|]. intros E. rewrite E, loc_eqb_refl in El. discriminate.
Qed.
Lemma defs_no_at : forall ds s x s' e, ev (NDefs ds) s (No x s' e) -> 
  exists ls, Forall2 (fun d l => fails_at rules cfg (NSeq d) s l) ds ls /\ greatest (e_loc x) ls.
Proof.
  intros ds s x s' e H. destruct (defs_no _ _ _ _ _ H) as (xs & y & HF & HL & E). exists (map e_loc xs). split.
  - clear - HF. induction HF as [|d z ds xs H HF IH]; cbn; [constructor|]. constructor; [|exact IH]. exists z. auto.
  - replace (e_loc x) with (e_loc y); [apply last_furthest_greatest; exact HL|]. subst x. destruct (Nat.leb 2 (length ds) && loc_eqb (e_loc y) (p_at s))%bool eqn:El; [|reflexivity].
    apply andb_true_iff in El as (_ & El). apply loc_eqb_eq in El. exact El.
Qed.
Lemma alts_fail : forall xs d ds s, Forall2 (fun d x => fails_with rules cfg (NSeq d) s x) (d :: ds) xs -> exists x, ev (NAlts (d :: ds)) s (No x s []).
Proof.
  intros xs d ds. revert xs d. induction ds as [|d2 ds IH]; intros xs d s H; inversion H as [|? x ? xs2 (s' & e & Hd) H2]; subst.
  - exists x. eapply ev_alts_last. exact Hd.
  - destruct (IH _ d2 s H2) as (l2 & H3). eexists. eapply ev_alts_no; eauto.
Qed.
Lemma all_fail : forall ds s, ds <> [] -> Forall (fun d => fails rules cfg (NSeq d) s) ds -> exists x s' e, ev (NDefs ds) s (No x s' e).
Proof.
  intros ds s Hne H. assert (K : exists xs, Forall2 (fun d x => fails_with rules cfg (NSeq d) s x) ds xs).
  { clear Hne. induction H as [|d ds (x & s' & e & Hx) H IH]; [exists []; constructor|]. destruct IH as (xs & IH). exists (x :: xs). constructor; [|exact IH]. exists s', e. exact Hx. }
  destruct K as (xs & K). destruct ds as [|d1 [|d2 ds]]; [contradiction| |].
  - inversion K as [|? x ? ? (s' & e & Hd) _]; subst. exists x, s', e. constructor. exact Hd.
  - destruct (alts_fail _ _ _ _ K) as (x & Hx). destruct (loc_eqb (e_loc x) (p_at s)) eqn:El.
    + apply loc_eqb_eq in El. eexists _, s, []. eapply ev_defs_here; eauto.
    + exists x, s, []. apply ev_defs_ahead; [exact Hx|]. intros E. rewrite E, loc_eqb_refl in El. discriminate.
Qed.
Lemma except_match : forall f x s s' e, ev (NTerm (Term f (Some x))) s (Match s' e) <->
  exists w o, ev (NFactor f) s (Match s' e) /\ goes s w s' /\ ev (NFactor x) (Pst w (p_at s)) o /\
    ((exists s2 e2, o = Match s2 e2 /\ p_rest s2 <> []) \/ (exists l s2 e2, o = No l s2 e2)).
Proof.
  intros f x s s' e. split.
  - intros H. inversion H; subst. eauto 8.
  - intros (w & o & H1 & H2 & H3 & H4). eapply ev_term_kept; eauto.
Qed.
Lemma except_no : forall f x s er, fails_with rules cfg (NTerm (Term f (Some x))) s er <->
  fails_with rules cfg (NFactor f) s er \/
  (er = wanted s (show_term (Term f (Some x))) /\
   exists w s' e s2 e2, ev (NFactor f) s (Match s' e) /\ goes s w s' /\ ev (NFactor x) (Pst w (p_at s)) (Match s2 e2) /\ p_rest s2 = []).
Proof.
  intros f x s er. split.
  - intros (s' & e & H). inversion H; subst.
    + left. unfold fails_with. eauto.
    + right. split; [reflexivity|]. eauto 10.
  - intros [(s' & e & H)|(-> & w & s' & e & s2 & e2 & H1 & H2 & H3 & H4)]; eexists _, _.
    + eapply ev_term_no. exact H.
    + eapply ev_term_excepted; eauto.
Qed.
End Shapes.
