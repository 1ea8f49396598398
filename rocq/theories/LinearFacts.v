(** Rules that can be parsed by looking one character ahead are parsed in linear time. *)
From Coq Require Import String List NArith Arith Bool Lia Relations.
From Verif Require Import Base Ident Ast Graph SpecText SpecSyntax TextFacts SyntaxFacts SpecParse SpecEvents SpecTotal SpecLL SpecDeriv SpecWork SpecLinear Pure PureFacts ParseFacts CodeFacts EvFacts LangFacts TotalFacts DepthFacts LLFacts.
From Verif Require CountFacts.
Import ListNotations.
Open Scope nat_scope.

Notation read := CountFacts.read.
Notation read_two := CountFacts.read_two.
Notation read_none := CountFacts.read_none.
Notation read_less := CountFacts.read_less.
Lemma read_self : forall s, read s s = 0.
Proof. intros s. unfold CountFacts.read. lia. Qed.
Lemma read_fits : forall s s', read s s' <= length (p_rest s).
Proof. intros s s'. unfold CountFacts.read. lia. Qed.
Lemma read_sum : forall s s', moved s s' -> read s s' + length (p_rest s') = length (p_rest s).
Proof. intros s s' H. apply moved_len in H. unfold CountFacts.read. lia. Qed.
Lemma resting_more : forall w d, resting w d <= resting w (S d).
Proof. induction d as [|d IH]; [cbn; lia|]. change (1 + w * resting w d <= 1 + w * resting w (S d)). nia. Qed.
Lemma resting_up : forall w d d', d <= d' -> resting w d <= resting w d'.
Proof. intros w d d' H. induction H; [lia|]. pose proof (resting_more w m). lia. Qed.

Section Linear.
Variable rules : list rule.
Variable cfg : config.
Variable start : str.
Hypothesis Hstraight : straightforward rules.
Hypothesis Hcalm : unstoppable rules cfg.
Hypothesis Hahead : one_ahead rules cfg start.
Hypothesis Hleft : forall r, In r rules -> ~ left_recursive rules cfg r.
Hypothesis Hprod : productive rules cfg.
Notation lang := (lang cfg rules).
Notation ev := (ev rules cfg).
Notation work := (work rules cfg).
Notation part := (part rules).
Notation begins := (begins rules cfg).
Notation vanishes := (vanishes rules cfg).
Notation after := (after rules cfg start).
Notation starts := (starts rules cfg).
Let Hfwd : no_forwarding cfg := proj2 (proj2 (proj2 (proj2 (proj2 Hcalm)))).
Variables B L W : nat.
Hypothesis HB : 1 <= B.
Let Q := L + W * B.

(** [x] instructions where the text was looked at [c] characters far, by something of weight
    [w]; [E] and [F] bound the rules tried before anything is read. *)
Definition few (E F w c x : nat) : Prop :=
  (c = 0 -> x <= w * E) /\ (1 <= c -> x <= (2 * c - 2) * Q + F + w * B).
Lemma few_two : forall E F w1 c1 x1 w2 c2 x2, E <= B -> F <= L -> few E F w1 c1 x1 -> (c1 = 0 -> few E F w2 c2 x2) -> (1 <= c1 -> few B L w2 c2 x2) ->
  few E F (w1 + w2) (c1 + c2) (x1 + x2).
Proof.
  intros E F w1 c1 x1 w2 c2 x2 HE HF (A1 & A2) H0 H1. split; intros Hc.
  - assert (c1 = 0) by lia. assert (c2 = 0) by lia. destruct (H0 H) as (K & _). specialize (A1 H). specialize (K H2). nia.
  - destruct (Nat.eq_dec c1 0) as [E1|E1].
    + destruct (H0 E1) as (_ & K). specialize (A1 E1). specialize (K ltac:(lia)). subst c1. cbn [Nat.add]. nia.
    + specialize (A2 ltac:(lia)). destruct (H1 ltac:(lia)) as (K1 & K2). destruct (Nat.eq_dec c2 0) as [E2|E2].
      * specialize (K1 E2). subst c2. rewrite Nat.add_0_r. nia.
      * specialize (K2 ltac:(lia)). assert (HQ : L <= Q) by (unfold Q; lia).
        replace (2 * (c1 + c2) - 2) with ((2 * c1 - 2) + (2 * c2 - 2) + 2) by lia. nia.
Qed.
Lemma few_more : forall E F w w' c x, few E F w c x -> w <= w' -> few E F w' c x.
Proof. intros E F w w' c x (A & K) H. split; intros Hc; [specialize (A Hc)|specialize (K Hc)]; nia. Qed.
Lemma few_up : forall E F w c x, E <= B -> F <= L -> few E F w c x -> few B L w c x.
Proof. intros E F w c x HE HF (A & K). split; intros Hc; [specialize (A Hc)|specialize (K Hc)]; nia. Qed.
Lemma few_one : forall E F w c x, 1 <= E -> few E F w c x -> few E F (1 + w) c (1 + x).
Proof. intros E F w c x HE (A & K). split; intros Hc; [specialize (A Hc)|specialize (K Hc)]; nia. Qed.
Lemma few_zero : forall E F w, few E F w 0 0.
Proof. intros E F w. split; intros Hc; [lia|lia]. Qed.

(** How far the text was looked at, and what that tells about what comes next: [op] are the
    characters the construct may begin with; [sh] those that may not follow it. *)
Definition reach (op sh : N -> Prop) (s : pst) (o : outcome) (c : nat) : Prop :=
  c <= length (p_rest s) /\
  (1 <= c -> exists ch, hd_error (p_rest s) = Some ch /\ op ch) /\
  match o with
  | Match s' _ => c = read s s' \/ (read s s' < c /\ exists ch, hd_error (p_rest s') = Some ch /\ sh ch)
  | No _ _ _ => True
  | Halt _ => False
  end.
Lemma reach_wrap : forall (op sh op' sh' : N -> Prop) s o c, (forall ch, op ch -> op' ch) -> (forall ch, sh ch -> sh' ch) -> reach op sh s o c -> reach op' sh' s o c.
Proof.
  intros op sh op' sh' s o c H1 H2 (A & K & D). split; [exact A|]. split.
  - intros Hc. destruct (K Hc) as (ch & E & Ho). eauto.
  - destruct o as [s' e| |]; auto. destruct D as [D|(D & ch & E & Hs)]; [left; exact D|right; eauto].
Qed.
Lemma reach_like : forall (op sh : N -> Prop) s o o' c, reach op sh s o c -> (forall s' e, o' = Match s' e -> exists e0, o = Match s' e0) -> (forall h, o' <> Halt h) -> reach op sh s o' c.
Proof.
  intros op sh s o o' c (A & K & D) H1 H2. split; [exact A|]. split; [exact K|]. destruct o' as [s' e| |h]; [|exact I|exfalso; eapply H2; reflexivity].
  destruct (H1 _ _ eq_refl) as (e0 & ->). exact D.
Qed.
Lemma reach_none : forall (op sh : N -> Prop) s o c, reach op sh s o c -> (forall ch, hd_error (p_rest s) = Some ch -> ~ op ch) -> c = 0.
Proof. intros op sh s o c (_ & K & _) H. destruct (Nat.eq_dec c 0) as [|E]; [assumption|]. destruct (K ltac:(lia)) as (ch & Hh & Ho). exfalso. eapply H; eauto. Qed.
Lemma reach_stay : forall (op sh : N -> Prop) s s' e, reach op sh s (Match s' e) 0 -> moved s s' -> s' = s.
Proof. intros op sh s s' e (_ & _ & [D|(D & _)]) Hm; [apply read_none; [exact Hm|lia]|lia]. Qed.

Lemma compose : forall E F w1 w2 k1 k2 c1 c2 (op1 sh1 op2 sh2 op sh : N -> Prop) s s1 e1 o o',
  E <= B -> F <= L -> few E F w1 c1 k1 -> reach op1 sh1 s (Match s1 e1) c1 -> moved s s1 -> forth s1 o ->
  (read s s1 = 0 -> few E F w2 c2 k2) -> (1 <= read s s1 -> few B L w2 c2 k2) -> reach op2 sh2 s1 o c2 ->
  (forall ch, sh1 ch -> ~ op2 ch) -> (forall ch, op1 ch -> op ch) -> (read s s1 = 0 -> forall ch, op2 ch -> op ch) ->
  (forall ch, sh2 ch -> sh ch) -> (forall ch e, o = Match s1 e -> sh1 ch -> sh ch) ->
  (forall s' e, o' = Match s' e -> exists e0, o = Match s' e0) -> (forall h, o' <> Halt h) ->
  exists c, few E F (w1 + w2) c (k1 + k2) /\ reach op sh s o' c.
Proof.
  intros E F w1 w2 k1 k2 c1 c2 op1 sh1 op2 sh2 op sh s s1 e1 o o' HE HF Hf1 Hr1 Hm Hm2 H0 H1 Hr2 Hso Hop Hop2 Hsh2 Hsh1 Hlike Hnh.
  pose proof Hr1 as (A1 & K1 & D1). pose proof (read_sum _ _ Hm) as Hsum. destruct D1 as [D1|(D1 & ch & Hch & Hs1)].
  - exists (c1 + c2). pose proof Hr2 as (A2 & K2 & D2). split.
    + apply few_two; auto; intros Hc; [apply H0|apply H1]; lia.
    + split; [lia|]. split.
      * intros Hc. destruct (Nat.eq_dec c1 0) as [E1|E1].
        -- destruct (K2 ltac:(lia)) as (ch & Hh & Ho). pose proof (read_none _ _ Hm ltac:(lia)) as ->. exists ch. split; [exact Hh|]. apply Hop2; [lia|exact Ho].
        -- destruct (K1 ltac:(lia)) as (ch & Hh & Ho). eauto.
      * destruct o' as [s2 e2| |h]; [|exact I|exfalso; eapply Hnh; reflexivity]. destruct (Hlike _ _ eq_refl) as (e0 & ->). cbn in Hm2.
        rewrite (read_two _ _ _ Hm Hm2). destruct D2 as [D2|(D2 & ch & Hch & Hs)]; [left; lia|right]. split; [lia|]. eauto.
  - assert (E2 : c2 = 0). { eapply reach_none; [exact Hr2|]. intros ch' Hch'. rewrite Hch in Hch'. injection Hch' as <-. apply Hso. exact Hs1. }
    subst c2. exists c1. split.
    + assert (K : k2 <= w2 * B). { destruct (Nat.eq_dec (read s s1) 0) as [Er|Er]; [destruct (H0 Er) as (X & _)|destruct (H1 ltac:(lia)) as (X & _)]; specialize (X eq_refl); nia. }
      destruct Hf1 as (X1 & X2). split; intros Hc; [lia|]. specialize (X2 Hc). nia.
    + split; [exact A1|]. split; [intros Hc; destruct (K1 Hc) as (ch' & ? & ?); eauto|].
      destruct o' as [s2 e2| |h]; [|exact I|exfalso; eapply Hnh; reflexivity]. destruct (Hlike _ _ eq_refl) as (e0 & ->). cbn in Hm2.
      pose proof (reach_stay _ _ _ _ _ Hr2 Hm2) as ->. right. split; [exact D1|]. exists ch. split; [exact Hch|]. eapply Hsh1; [reflexivity|exact Hs1].
Qed.

Definition gives (E F w : nat) (n : node) (op sh : N -> Prop) (s : pst) : Prop :=
  forall o, ev n s o -> exists k c, work n s k /\ few E F w c k /\ reach op sh s o c.
Definition shut (n : node) (ch : N) : Prop := ~ after n (Some ch).
Definition live (n : node) : Prop := exists x, after n x.
Definition weight (n : node) : nat :=
  match n with
  | NPrim p => primary_effort p
  | NFactor f => factor_effort f
  | NTerm t => term_effort t
  | NSeq ts => sequence_effort ts
  | NDefs ds => defs_effort ds
  | _ => 0
  end.
Definition plain (n : node) : Prop := match n with NPrim _ | NFactor _ | NTerm _ | NSeq _ | NDefs _ => True | _ => False end.
Definition cheap (E F : nat) (n : node) (s : pst) : Prop := gives E F (weight n) n (begins n) (shut n) s.
Definition yields (E F : nat) (r : rule) (s : pst) : Prop :=
  forall o, ev (NDefs (r_defs r)) s o -> exists k c, work (NDefs (r_defs r)) s k /\ reach (begins (NDefs (r_defs r))) (shut (NDefs (r_defs r))) s o c /\
    (c = 0 -> 1 + k <= E) /\ (1 <= c -> 1 + k <= (2 * c - 2) * Q + F).

Section Level.
Variables k E F : nat.
Hypothesis HE : 1 <= E.
Hypothesis HEB : E <= B.
Hypothesis HFL : F <= L.
Definition within (s : pst) : Prop := length (p_rest s) <= k.
Hypothesis Hbelow : forall n s, plain n -> live n -> weight n <= W -> length (p_rest s) < k -> cheap B L n s.
Definition bodies_few (n : node) : Prop := forall r s, starts n r -> live (NDefs (r_defs r)) -> within s -> yields E F r s.
Lemma within_moved : forall s s', within s -> moved s s' -> within s'.
Proof. intros s s' H Hm. pose proof (moved_len _ _ Hm). unfold within in *. lia. Qed.

(** Repetitions that have to read something each time. *)
Definition often (w c x : nat) : Prop := (c = 0 -> x <= w * E) /\ (1 <= c -> x <= (2 * c - 2) * Q + F + 2 * w * B).
Lemma loop_two : forall w k1 k2 c1 c2 (opb shb shT : N -> Prop) s s1 e1 o o',
  w <= W -> few E F w c1 k1 -> reach opb shb s (Match s1 e1) c1 -> moved s s1 -> forth s1 o -> 1 <= read s s1 ->
  often w c2 k2 -> reach opb shT s1 o c2 -> (forall ch, shb ch -> ~ opb ch) -> (forall ch, shb ch -> shT ch) ->
  (forall s' e, o' = Match s' e -> exists e0, o = Match s' e0) -> (forall h, o' <> Halt h) ->
  exists c, often w c (k1 + k2) /\ reach opb shT s o' c.
Proof.
  intros w k1 k2 c1 c2 opb shb shT s s1 e1 o o' Hw (X1 & X2) (R1 & R2 & R3) Hm1 Hm2 Hc (Y1 & Y2) Hr2 Hsho Hsh Hlike Hnh.
  pose proof Hr2 as (S1 & S2 & S3). pose proof (read_sum _ _ Hm1) as Hsum. pose proof (Nat.mul_le_mono_r w W B Hw) as HwB. pose proof (Nat.mul_le_mono_l E B w HEB) as HwE.
  assert (HQ : Q = L + W * B) by reflexivity. destruct R3 as [R3|(R3 & ch & Hch & Hs1)].
  - exists (c1 + c2). split; [split; [lia|]|split; [lia|split]].
    + intros _. specialize (X2 ltac:(lia)). destruct (Nat.eq_dec c2 0) as [E2|E2].
      * specialize (Y1 E2). subst c2. rewrite Nat.add_0_r. lia.
      * specialize (Y2 ltac:(lia)). replace (2 * (c1 + c2) - 2) with ((2 * c1 - 2) + (2 * c2 - 2) + 2) by lia. rewrite !Nat.mul_add_distr_r. lia.
    + intros _. destruct (R2 ltac:(lia)) as (ch & ? & ?); eauto.
    + destruct o' as [s2 e2| |h]; [|exact I|exfalso; eapply Hnh; reflexivity]. destruct (Hlike _ _ eq_refl) as (e0 & ->). cbn in Hm2.
      rewrite (read_two _ _ _ Hm1 Hm2). destruct S3 as [S3|(S3 & ch & ? & ?)]; [left; lia|right; split; [lia|eauto]].
  - assert (E2 : c2 = 0). { eapply reach_none; [exact Hr2|]. intros ch' Hch'. rewrite Hch in Hch'. injection Hch' as <-. apply Hsho. exact Hs1. }
    subst c2. exists c1. split; [split; [lia|]|split; [exact R1|split; [exact R2|]]].
    + intros Hc1. specialize (X2 Hc1). specialize (Y1 eq_refl). lia.
    + destruct o' as [s2 e2| |h]; [|exact I|exfalso; eapply Hnh; reflexivity]. destruct (Hlike _ _ eq_refl) as (e0 & ->). cbn in Hm2.
      pose proof (reach_stay _ _ _ _ _ Hr2 Hm2) as ->. right. split; [exact R3|]. eauto.
Qed.
Lemma times_free : forall mn i b (opb shb shT : N -> Prop) w n s o, ev n s o -> n = NTimes mn max_count i b ->
  w <= W -> within s -> (forall s, within s -> gives E F w b opb shb s) ->
  (forall s s' e, ev b s (Match s' e) -> p_at s' <> p_at s) ->
  (forall ch, shb ch -> ~ opb ch) -> (forall ch, shb ch -> shT ch) -> (forall ch, opb ch -> shT ch) ->
  exists k c, work n s k /\ often w c k /\ reach opb shT s o c.
Proof.
  intros mn i b opb shb shT w n s o H. revert i. induction H; intros i0 En Hw Hs Hb Hmv Hsho Hsh Hop; try discriminate En; injection En as -> -> -> ->.
  - exists 0, 0. split; [apply wk_times_end; assumption|]. split; [split; lia|]. split; [lia|]. split; [lia|]. left. rewrite read_self. reflexivity.
  - destruct (Hb s Hs _ H1) as (k1 & c1 & Hk & (X1 & X2) & (R1 & R2 & _)). exists k1, c1.
    split; [eapply wk_times_last; [exact H|exact H1|exact Hk|left; intros ? ?; discriminate]|]. split; [split; [exact X1|intros Hc; specialize (X2 Hc); nia]|].
    split; [exact R1|]. split; [exact R2|exact I].
  - destruct (Hb s Hs _ H1) as (k1 & c1 & Hk & (X1 & X2) & (R1 & R2 & _)). exists k1, c1.
    split; [eapply wk_times_last; [exact H|exact H1|exact Hk|left; intros ? ?; discriminate]|]. split; [split; [exact X1|intros Hc; specialize (X2 Hc); nia]|].
    split; [exact R1|]. split; [exact R2|]. rewrite read_self. destruct (Nat.eq_dec c1 0) as [->|Ec]; [left; reflexivity|right]. split; [lia|].
    destruct (R2 ltac:(lia)) as (ch & Hh & Ho). eauto.
  - exfalso. eapply Hmv; eauto.
  - exfalso. destruct (Hb s Hs _ H0) as (k1 & c1 & _ & _ & (_ & _ & [])).
  - pose proof (ev_moved _ _ _ _ _ H1) as Hm1. pose proof (ev_moved _ _ _ _ _ H2) as Hm2. cbn in Hm1.
    assert (Hc : 1 <= read s s'). { destruct (Nat.eq_dec (read s s') 0) as [E0|]; [|lia]. exfalso. apply (H0 eq_refl). rewrite (read_none _ _ Hm1 E0). reflexivity. }
    destruct (Hb s Hs _ H1) as (k1 & c1 & Hk & X & R).
    destruct (IHev2 (i0 + 1)%N eq_refl Hw (within_moved _ _ Hs Hm1) Hb Hmv Hsho Hsh Hop) as (k2 & c2 & Hk2 & Y & Hr2).
    destruct (loop_two w k1 k2 c1 c2 opb shb shT s s' evs _ (Match s2 (evs ++ evs2)) Hw X R Hm1 Hm2 Hc Y Hr2 Hsho Hsh) as (c & G & Hr); [intros ? ? [= <- <-]; eauto|discriminate|].
    exists (k1 + k2), c. split; [eapply wk_times_more; eauto|]. split; assumption.
  - pose proof (ev_moved _ _ _ _ _ H1) as Hm1. pose proof (ev_moved _ _ _ _ _ H2) as Hm2. cbn in Hm1.
    assert (Hc : 1 <= read s s'). { destruct (Nat.eq_dec (read s s') 0) as [E0|]; [|lia]. exfalso. apply (H0 eq_refl). rewrite (read_none _ _ Hm1 E0). reflexivity. }
    destruct (Hb s Hs _ H1) as (k1 & c1 & Hk & X & R).
    destruct (IHev2 (i0 + 1)%N eq_refl Hw (within_moved _ _ Hs Hm1) Hb Hmv Hsho Hsh Hop) as (k2 & c2 & Hk2 & Y & Hr2).
    destruct (loop_two w k1 k2 c1 c2 opb shb shT s s' evs _ (No x s2 []) Hw X R Hm1 Hm2 Hc Y Hr2 Hsho Hsh) as (c & G & Hr); [discriminate|discriminate|].
    exists (k1 + k2), c. split; [eapply wk_times_more; eauto|]. split; assumption.
  - exfalso. pose proof (ev_moved _ _ _ _ _ H1) as Hm1. cbn in Hm1.
    destruct (IHev2 (i0 + 1)%N eq_refl Hw (within_moved _ _ Hs Hm1) Hb Hmv Hsho Hsh Hop) as (k2 & c2 & _ & _ & (_ & _ & [])).
Qed.
(** ... and counted ones. *)
Lemma times_counted : forall b (opb shb shT : N -> Prop) w mn mx,
  (mx = max_count -> forall s s' e, ev b s (Match s' e) -> p_at s' <> p_at s) ->
  ((1 < mx)%N -> forall ch, shb ch -> ~ opb ch) -> (forall ch, shb ch -> shT ch) -> (mn = mx \/ forall ch, opb ch -> shT ch) ->
  (forall s, within s -> gives E F w b opb shb s) ->
  forall j i, N.to_nat (mx - i) = j -> forall s, within s -> gives E F (j * w) (NTimes mn mx i b) (fun ch => (i < mx)%N /\ opb ch) shT s.
Proof.
  intros b opb shb shT w mn mx Hmv Hsho Hsh Hstop Hb. induction j as [|j IH]; intros i Hj s Hs o H.
  - inversion H; subst; try lia. exists 0, 0. split; [apply wk_times_end; assumption|]. split; [apply few_zero|]. split; [lia|]. split; [lia|]. left. rewrite read_self. reflexivity.
  - assert (Hi : (i < mx)%N) by lia. cbn [Nat.mul]. inversion H; subst; try lia.
    + match goal with X : ev b s (No _ _ _) |- _ => rename X into H1 end. destruct (Hb s Hs _ H1) as (k1 & c1 & Hk & X & (R1 & R2 & _)). exists k1, c1.
      split; [eapply wk_times_last; [exact Hi|exact H1|exact Hk|left; intros ? ?; discriminate]|]. split; [apply (few_more _ _ w); [exact X|lia]|].
      split; [exact R1|]. split; [intros Hc; destruct (R2 Hc) as (ch & ? & ?); eauto|exact I].
    + match goal with X : ev b s (No _ _ _) |- _ => rename X into H1 end. destruct (Hb s Hs _ H1) as (k1 & c1 & Hk & X & (R1 & R2 & _)). exists k1, c1.
      split; [eapply wk_times_last; [exact Hi|exact H1|exact Hk|left; intros ? ?; discriminate]|]. split; [apply (few_more _ _ w); [exact X|lia]|].
      split; [exact R1|]. split; [intros Hc; destruct (R2 Hc) as (ch & ? & ?); eauto|]. rewrite read_self. destruct Hstop as [->|Hop]; [lia|].
      destruct (Nat.eq_dec c1 0) as [->|Ec]; [left; reflexivity|right]. split; [lia|]. destruct (R2 ltac:(lia)) as (ch & Hh & Ho). eauto.
    + exfalso. match goal with X : ev b s (Match _ _) |- _ => eapply Hmv; [reflexivity|exact X|assumption] end.
    + exfalso. match goal with X : ev b s (Halt _) |- _ => destruct (Hb s Hs _ X) as (k1 & c1 & _ & _ & (_ & _ & [])) end.
    + match goal with X : ev b s (Match ?a ?x), Y : ev (NTimes _ _ _ _) ?a (Match ?a2 ?y) |- _ => rename X into H1; rename Y into H2; rename a into s1; rename x into e1; rename y into e2; rename a2 into s2 end.
      pose proof (ev_moved _ _ _ _ _ H1) as Hm1. pose proof (ev_moved _ _ _ _ _ H2) as Hm2. cbn in Hm1.
      destruct (Hb s Hs _ H1) as (k1 & c1 & Hk & X & R). destruct (IH (i + 1)%N ltac:(lia) s1 (within_moved _ _ Hs Hm1) _ H2) as (k2 & c2 & Hk2 & Y & Hr2).
      destruct (compose E F w (j * w) k1 k2 c1 c2 opb shb (fun ch => (i + 1 < mx)%N /\ opb ch) shT (fun ch => (i < mx)%N /\ opb ch) shT s s1 e1 (Match s2 e2) (Match s2 (e1 ++ e2)) HEB HFL X R Hm1 Hm2) as (c & G & Hr); auto.
      * intros _. apply (few_up E F); assumption.
      * intros ch Hc (Hlt & Ho). eapply Hsho; [lia|exact Hc|exact Ho].
      * intros _ ch (Hlt & Ho). split; [lia|exact Ho].
      * intros ? ? [= <- <-]. eauto.
      * discriminate.
      * exists (k1 + k2), c. split; [eapply wk_times_more; eauto|]. split; assumption.
    + match goal with X : ev b s (Match ?a ?x), Y : ev (NTimes _ _ _ _) ?a (No ?xx ?a2 _) |- _ => rename X into H1; rename Y into H2; rename a into s1; rename x into e1; rename xx into er; rename a2 into s2 end.
      pose proof (ev_moved _ _ _ _ _ H1) as Hm1. pose proof (ev_moved _ _ _ _ _ H2) as Hm2. cbn in Hm1.
      destruct (Hb s Hs _ H1) as (k1 & c1 & Hk & X & R). destruct (IH (i + 1)%N ltac:(lia) s1 (within_moved _ _ Hs Hm1) _ H2) as (k2 & c2 & Hk2 & Y & Hr2).
      destruct (compose E F w (j * w) k1 k2 c1 c2 opb shb (fun ch => (i + 1 < mx)%N /\ opb ch) shT (fun ch => (i < mx)%N /\ opb ch) shT s s1 e1 (No er s2 []) (No er s2 []) HEB HFL X R Hm1 Hm2) as (c & G & Hr); auto.
      * intros _. apply (few_up E F); assumption.
      * intros ch Hc (Hlt & Ho). eapply Hsho; [lia|exact Hc|exact Ho].
      * intros _ ch (Hlt & Ho). split; [lia|exact Ho].
      * discriminate.
      * discriminate.
      * exists (k1 + k2), c. split; [eapply wk_times_more; eauto|]. split; assumption.
    + exfalso. match goal with X : ev b s (Match ?a ?x), Y : ev (NTimes _ _ _ _) ?a (Halt _) |- _ => rename X into H1; rename Y into H2; rename a into s1 end.
      pose proof (ev_moved _ _ _ _ _ H1) as Hm1. cbn in Hm1. destruct (IH (i + 1)%N ltac:(lia) s1 (within_moved _ _ Hs Hm1) _ H2) as (k2 & c2 & _ & _ & (_ & _ & [])).
Qed.

Lemma live_part : forall n, live n -> part n.
Proof. intros n (x & H). exact (after_part rules cfg start n x H). Qed.
Lemma speaks_seq : forall d s s' e, live (NSeq d) -> ev (NSeq d) s (Match s' e) -> exists w, goes s w s' /\ lang (NSeq d) w.
Proof. intros d s s' e Hl H. exact (ev_speaks rules cfg Hfwd (rules_gl rules Hstraight) _ _ _ H (part_gl_seq rules Hstraight _ (live_part _ Hl))). Qed.
Lemma stays_vanish : forall n s e, ev n s (Match s e) -> straight n -> words rules cfg n [].
Proof. intros n s e H Hs. exact (stay_words rules cfg Hstraight Hcalm _ _ _ _ H Hs eq_refl). Qed.
Lemma part_straight_term : forall t, part (NTerm t) -> straight (NTerm t).
Proof. intros [[n p] x] H. cbn. apply gl_term, gl_factor. apply (part_gl_prim rules Hstraight). eapply pt_factor, pt_term. exact H. Qed.

Definition good (p : primary) : Prop := live (NPrim p) -> primary_effort p <= W -> bodies_few (NPrim p) -> forall s, within s -> cheap E F (NPrim p) s.
Lemma begins_times : forall n p ch, (0 < n)%N -> part (NPrim p) -> begins (NPrim p) ch -> begins (NFactor (Factor n p)) ch.
Proof.
  intros n p ch Hn Hp (w & Hw). destruct (Hprod _ Hp) as (w0 & Hw0). exists (w ++ concat (repeat w0 (N.to_nat n - 1))).
  replace n with (N.of_nat (length ((ch :: w) :: repeat w0 (N.to_nat n - 1)))) at 1 by (cbn [length]; rewrite repeat_length; lia).
  change (ch :: w ++ concat (repeat w0 (N.to_nat n - 1))) with (concat ((ch :: w) :: repeat w0 (N.to_nat n - 1))). apply words_times.
  constructor; [exact Hw|]. apply Forall_forall. intros x Hx. apply repeat_spec in Hx. subst. exact Hw0.
Qed.
Lemma good_factor : forall n p, good p -> live (NFactor (Factor n p)) -> factor_effort (Factor n p) <= W -> bodies_few (NFactor (Factor n p)) ->
  forall s, within s -> cheap E F (NFactor (Factor n p)) s.
Proof.
  intros n p Hp Hl Hw Hb s Hs. pose proof Hl as (x & Ha). unfold factor_effort in Hw. cbn [f_rep f_prim] in Hw.
  assert (Hl' : live (NPrim p)) by (exists x; eapply af_factor; exact Ha).
  assert (Hp' : forall s, within s -> gives E F (primary_effort p) (NPrim p) (begins (NPrim p)) (shut (NPrim p)) s).
  { apply Hp; [exact Hl'|nia|]. intros r s0 Hr. apply Hb. constructor. exact Hr. }
  intros o H. cbn [weight]. unfold factor_effort. cbn [f_rep f_prim]. inversion H; subst.
  - match goal with X : ev (NPrim p) s o |- _ => destruct (Hp' s Hs o X) as (k1 & c & Hk & Hf & Hr) end. exists k1, c. split; [apply wk_factor_one; exact Hk|].
    split; [apply (few_more _ _ (primary_effort p)); [exact Hf|]; change (N.to_nat (N.max 1 1)) with 1; lia|].
    eapply reach_wrap; [| |exact Hr]; [intros ch Hc; apply begins_times; [lia|apply live_part; exact Hl'|exact Hc]|]. intros ch Hc Hx. apply Hc. eapply af_factor. exact Hx.
  - match goal with X : ev (NTimes n n 0 _) s o, Y : n <> 1%N |- _ => rename X into H1; rename Y into Hn end.
    assert (K : gives E F (N.to_nat n * primary_effort p) (NTimes n n 0 (NPrim p)) (fun ch => (0 < n)%N /\ begins (NPrim p) ch) (shut (NFactor (Factor n p))) s).
    { apply (times_counted (NPrim p) (begins (NPrim p)) (shut (NPrim p)) (shut (NFactor (Factor n p))) (primary_effort p) n n); auto.
      - intros -> s0 s0' e0 He Hat. apply (proj1 (proj2 (proj2 (proj2 (proj2 Hcalm)))) p (live_part _ Hl)).
        exact (stay_words rules cfg Hstraight Hcalm _ _ _ _ He (part_gl_prim rules Hstraight _ (live_part _ Hl')) Hat).
      - intros H1n ch Hc Hbg. apply Hc. eapply af_again; eauto.
      - intros ch Hc Hx. apply Hc. eapply af_factor. exact Hx.
      - rewrite N.sub_0_r. reflexivity. }
    destruct (K o H1) as (k1 & c & Hk & Hf & Hr). exists (1 + k1), c. split; [apply wk_factor_many; assumption|]. split.
    + apply few_one; [exact HE|]. apply (few_more _ _ (N.to_nat n * primary_effort p)); [exact Hf|]. apply Nat.mul_le_mono_r. lia.
    + eapply reach_wrap; [| |exact Hr]; [|auto]. intros ch (Hn0 & Hc). apply begins_times; [exact Hn0|apply live_part; exact Hl'|exact Hc].
Qed.
Lemma good_term : forall t, P_term good t -> live (NTerm t) -> term_effort t <= W -> bodies_few (NTerm t) -> forall s, within s -> cheap E F (NTerm t) s.
Proof.
  intros [[n p] e] (Hp & _) Hl Hw Hb s Hs o H. cbn in Hp. pose proof Hl as (x & Ha). destruct e as [e|]; [exfalso; exact (proj1 Hstraight _ _ (live_part _ Hl))|].
  assert (K : cheap E F (NFactor (Factor n p)) s).
  { apply good_factor; auto; [exists x; eapply af_term; exact Ha|]. intros r s0 Hr. apply Hb. constructor. exact Hr. }
  inversion H; subst. match goal with X : ev (NFactor _) s o |- _ => destruct (K o X) as (k1 & c & Hk & Hf & Hr) end. exists k1, c. split; [apply wk_term_plain; exact Hk|]. split; [exact Hf|].
  eapply reach_wrap; [| |exact Hr]; [intros ch (w & Hc); exists w; apply lg_term; exact Hc|]. intros ch Hc Hx. apply Hc. eapply af_term. exact Hx.
Qed.
Lemma work_bare : forall t d s j, bare_group t = Some d -> work (NTerm t) s j -> work (NDefs d) s j.
Proof.
  intros t d s j H Hw. destruct (bare_shape t d H) as (l & ->). inversion Hw; subst. match goal with X : SpecWork.work _ _ (NFactor _) _ _ |- _ => inversion X; subst; [|congruence] end.
  match goal with X : SpecWork.work _ _ (NPrim _) _ _ |- _ => inversion X; subst end. assumption.
Qed.
Lemma good_seq : forall ts, Forall (P_term good) ts -> live (NSeq ts) -> sequence_effort ts <= W -> bodies_few (NSeq ts) -> forall s, within s -> cheap E F (NSeq ts) s.
Proof.
  intros ts HF. induction HF as [|t ts Ht HF IH]; intros Hl Hw Hb s Hs o H.
  - inversion H; subst. exists 0, 0. split; [apply wk_seq_nil|]. split; [apply few_zero|]. split; [lia|]. split; [lia|]. left. rewrite read_self. reflexivity.
  - pose proof Hl as (x & Ha). cbn [sequence_effort weight] in *. destruct (Hprod _ (pt_rest _ _ _ (live_part _ Hl))) as (wr & Hwr).
    assert (Hlt : live (NTerm t)). { destruct wr as [|c wr]; [exists x; eapply af_head_last; [exact Ha|exact Hwr]|]. exists (Some c). eapply af_head; [exact Ha|]. exists wr. exact Hwr. }
    assert (Hlr : live (NSeq ts)) by (exists x; eapply af_rest; exact Ha).
    assert (Ht' : cheap E F (NTerm t) s).
    { apply good_term; auto; [lia|]. intros r s0 Hr. apply Hb. apply st_seq. exact Hr. }
    assert (Hbeg : forall ch, begins (NTerm t) ch -> begins (NSeq (t :: ts)) ch).
    { intros ch (w & Hc). exists (w ++ wr). exact (lg_seq _ _ _ _ _ _ Hc Hwr). }
    inversion H; subst.
    + match goal with X : bare_group t = Some ?d0, Y : ev (NDefs ?d0) s o |- _ => rename X into Eg; rename Y into Hd; rename d0 into d end.
      pose proof (proj2 Hstraight _ _ (live_part _ Hl) ltac:(congruence)) as ->.
      assert (He : ev (NTerm t) s o). { destruct (bare_shape t d Eg) as (l & ->). apply ev_term_plain, ev_factor_one, ev_grouped. exact Hd. }
      destruct (Ht' o He) as (k1 & c & Hk & Hf & Hr). exists k1, c. split; [eapply wk_seq_group; [exact Eg|]; eapply work_bare; eauto|]. split; [apply (few_more _ _ (term_effort t)); [exact Hf|lia]|].
      eapply reach_wrap; [exact Hbeg| |exact Hr]. intros ch Hc Hx. apply Hc. eapply af_head_last; [exact Hx|apply lg_nil].
    + match goal with X : ev (NTerm t) s (Match ?a ?y) |- _ => rename X into K1; rename a into s1; rename y into e1 end.
      match goal with X : ev (NSeq ts) s1 ?oo |- _ => rename X into K2; rename oo into o2 end.
      pose proof (ev_moved _ _ _ _ _ K1) as Hm1. pose proof (ev_moved _ _ _ _ _ K2) as Hm2. cbn in Hm1.
      destruct (Ht' _ K1) as (k1 & c1 & Hk1 & X & R). cbn [weight] in X.
      assert (Hrest : exists k2 c2, work (NSeq ts) s1 k2 /\ (read s s1 = 0 -> few E F (sequence_effort ts) c2 k2) /\ (1 <= read s s1 -> few B L (sequence_effort ts) c2 k2) /\ reach (begins (NSeq ts)) (shut (NSeq ts)) s1 o2 c2).
      { destruct (Nat.eq_dec (read s s1) 0) as [E0|E0].
        - pose proof (read_none _ _ Hm1 E0) as ->. destruct (IH Hlr ltac:(lia)) with (s := s) (o := o2) as (k2 & c2 & Y1 & Y2 & Y3); auto.
          + intros r s0 Hr. apply Hb. apply st_after; [assumption| |exact Hr]. exact (ev_rests _ _ _ _ _ K1 eq_refl).
          + exists k2, c2. split; [exact Y1|]. split; [intros _; exact Y2|]. split; [lia|exact Y3].
        - destruct (Hbelow (NSeq ts) s1 I Hlr) with (o := o2) as (k2 & c2 & Y1 & Y2 & Y3); [cbn; lia| |exact K2|].
          + pose proof (read_less s s1 ltac:(lia)). unfold within in Hs. lia.
          + exists k2, c2. split; [exact Y1|]. split; [lia|]. split; [intros _; exact Y2|exact Y3]. }
      destruct Hrest as (k2 & c2 & Hk2 & Y1 & Y2 & Y3).
      assert (Hnh : forall h, before e1 o2 <> Halt h). { intros h. destruct o2; cbn; try discriminate. destruct Y3 as (_ & _ & []). }
      destruct (compose E F (term_effort t) (sequence_effort ts) k1 k2 c1 c2 (begins (NTerm t)) (shut (NTerm t)) (begins (NSeq ts)) (shut (NSeq ts)) (begins (NSeq (t :: ts))) (shut (NSeq (t :: ts))) s s1 e1 o2 (before e1 o2)) as (c & G & Hr); auto.
      * intros ch Hc Hbg. apply Hc. eapply af_head; eauto.
      * intros E0 ch (w & Hc). pose proof (read_none _ _ Hm1 E0) as ->. exists w.
        exact (lg_seq _ _ _ _ [] _ (stays_vanish (NTerm t) s e1 K1 (part_straight_term t (live_part _ Hlt))) Hc).
      * intros ch Hc Hx. apply Hc. eapply af_rest. exact Hx.
      * intros ch e -> Hc Hx. apply Hc. eapply af_head_last; [exact Hx|].
        exact (stays_vanish (NSeq ts) s1 e K2 (part_gl_seq rules Hstraight _ (live_part _ Hlr))).
      * intros s' e Eo. destruct o2 as [s2 e2| |]; try discriminate Eo. cbn in Eo. injection Eo as <- <-. eauto.
      * exists (k1 + k2), c. split; [eapply wk_seq; eauto|]. split; assumption.
    + match goal with X : ev (NTerm t) s (No ?a ?y ?z) |- _ => rename X into K1; destruct (Ht' _ K1) as (k1 & c1 & Hk1 & X1 & R) end.
      exists k1, c1. split; [eapply wk_seq_over; [assumption|exact K1|intros ? ?; discriminate|exact Hk1]|]. split; [apply (few_more _ _ (term_effort t)); [exact X1|lia]|].
      destruct R as (R1 & R2 & _). split; [exact R1|]. split; [intros Hc; destruct (R2 Hc) as (ch & ? & ?); eauto|exact I].
    + exfalso. match goal with X : ev (NTerm t) s (Halt _) |- _ => destruct (Ht' _ X) as (k1 & c1 & _ & _ & (_ & _ & [])) end.
Qed.

Lemma alts_one : forall ds s s' e, ev (NAlts ds) s (Match s' e) -> exists d, In d ds /\ ev (NSeq d) s (Match s' e).
Proof. exact (CountFacts.alts_one rules cfg). Qed.
Lemma alts_good : forall ds, live (NDefs ds) -> forall ds' pre, ds = pre ++ ds' -> ds' <> [] -> forall s, within s ->
  (forall d, In d ds' -> cheap E F (NSeq d) s) ->
  gives E F (alts_effort ds') (NAlts ds') (fun ch => exists d, In d ds' /\ begins (NSeq d) ch) (shut (NDefs ds)) s.
Proof.
  intros ds Hl. pose proof Hl as (x & Ha). induction ds' as [|d ds' IH]; intros pre Eds Hne s Hs Hd o H; [congruence|].
  assert (Hin : In d ds) by (rewrite Eds; apply in_or_app; right; left; reflexivity).
  pose proof (Hd d (or_introl eq_refl)) as Hfirst. cbn [alts_effort].
  assert (Hsh : forall ch, shut (NSeq d) ch -> shut (NDefs ds) ch) by (intros ch Hc Hx; apply Hc; eapply af_defs; [exact Hx|exact Hin]).
  assert (Hsame : forall o', (forall e s1 e1, o' <> No e s1 e1) -> ev (NSeq d) s o' -> exists k c, work (NAlts (d :: ds')) s k /\ few E F (sequence_effort d + alts_effort ds') c k /\ reach (fun ch => exists d0, In d0 (d :: ds') /\ begins (NSeq d0) ch) (shut (NDefs ds)) s o' c).
  { intros o' Hno Ho. destruct (Hfirst o' Ho) as (k1 & c1 & Hk & X & R). exists k1, c1. split; [eapply wk_alts_end; [exact Ho|exact Hno|exact Hk]|].
    split; [apply (few_more _ _ (sequence_effort d)); [exact X|lia]|]. eapply reach_wrap; [|exact Hsh|exact R]. intros ch Hc. exists d. split; [left; reflexivity|exact Hc]. }
  assert (Hnext : forall e1 s1 v1 o2, ev (NSeq d) s (No e1 s1 v1) -> ds' <> [] -> ev (NAlts ds') s o2 -> (forall h, o2 <> Halt h) ->
    exists k c, work (NAlts (d :: ds')) s k /\ few E F (sequence_effort d + alts_effort ds') c k /\ reach (fun ch => exists d0, In d0 (d :: ds') /\ begins (NSeq d0) ch) (shut (NDefs ds)) s o2 c).
  { intros e1 s1 v1 o2 H1 Hne' H2 Hnh. destruct (Hfirst _ H1) as (k1 & c1 & Hk1 & X & (R1 & R2 & _)).
    destruct (IH (pre ++ [d]) ltac:(rewrite <- app_assoc; exact Eds) Hne' s Hs (fun d0 Hd0 => Hd d0 (or_intror Hd0)) o2 H2) as (k2 & c2 & Hk2 & Y & Hr2). pose proof Hr2 as (S1 & S2 & S3).
    assert (Hw : work (NAlts (d :: ds')) s (k1 + k2)) by (eapply wk_alts_next; eauto). exists (k1 + k2).
    destruct (Nat.eq_dec c1 0) as [E1|E1].
    - exists c2. split; [exact Hw|]. split; [subst c1; apply (few_two _ _ _ 0 _ _ c2); auto; lia|]. eapply reach_wrap; [| |exact Hr2]; [|auto]. intros ch (d0 & Hd0 & Hc). exists d0. split; [right; exact Hd0|exact Hc].
    - destruct (R2 ltac:(lia)) as (ch & Hh & Hc).
      assert (E2 : c2 = 0). { eapply reach_none; [exact Hr2|]. intros ch' Hch' (d0 & Hd0 & Hc0). rewrite Hh in Hch'. injection Hch' as <-.
        apply in_split in Hd0 as (m1 & m2 & Em). rewrite Eds, Em in Ha. destruct (proj1 Hahead _ _ _ _ _ _ Ha) as (_ & Hdis & _). exact (Hdis ch Hc Hc0). }
      subst c2. exists c1. split; [exact Hw|]. split.
      + rewrite <- (Nat.add_0_r c1). apply few_two; auto. intros _. apply (few_up E F); assumption.
      + split; [exact R1|]. split; [intros _; exists ch; split; [exact Hh|]; exists d; split; [left; reflexivity|exact Hc]|].
        destruct o2 as [s2 e2| |h]; [|exact I|eapply Hnh; reflexivity]. pose proof (ev_moved _ _ _ _ _ H2) as Hm2. cbn in Hm2. pose proof (reach_stay _ _ _ _ _ Hr2 Hm2) as ->.
        right. rewrite read_self. split; [lia|]. exists ch. split; [exact Hh|]. intros Hx. destruct (alts_one _ _ _ _ H2) as (d0 & Hd0 & Hm).
        assert (Hl0 : live (NSeq d0)) by (exists x; eapply af_defs; [exact Ha|rewrite Eds; apply in_or_app; right; right; exact Hd0]).
        pose proof (stays_vanish (NSeq d0) s e2 Hm (part_gl_seq rules Hstraight _ (live_part _ Hl0))) as Hv.
        apply in_split in Hd0 as (m1 & m2 & Em). rewrite Eds, Em in Hx. destruct (proj1 Hahead _ _ _ _ _ _ Hx) as (_ & _ & Hfol). exact (Hfol Hv ch eq_refl Hc). }
  inversion H; subst.
  - apply Hsame; [discriminate|assumption].
  - apply Hsame; [discriminate|assumption].
  - match goal with X : ev (NSeq d) s (No _ _ _) |- _ => rename X into H1 end. destruct (Hfirst _ H1) as (k1 & c1 & Hk1 & X & (R1 & R2 & _)).
    exists (k1 + 0), c1. split; [eapply wk_alts_next; [exact H1|exact Hk1|apply wk_alts_nil]|]. split; [rewrite (Nat.add_0_r k1); apply (few_more _ _ (sequence_effort d)); [exact X|cbn; lia]|].
    split; [exact R1|]. split; [|exact I]. intros Hc. destruct (R2 Hc) as (ch & Hh & Ho). exists ch. split; [exact Hh|]. exists d. split; [left; reflexivity|exact Ho].
  - eapply Hnext; [eassumption| |eassumption|discriminate]. intros ->. match goal with X : ev (NAlts []) _ _ |- _ => inversion X end.
  - match goal with X : ev (NSeq d) s (No _ _ _), Y : ev (NAlts ds') s (No _ _ _) |- _ => rename X into H1; rename Y into H2 end.
    destruct (Hnext _ _ _ _ H1 ltac:(intros ->; inversion H2) H2 ltac:(discriminate)) as (k1 & c & Hk & X & R). exists k1, c. split; [exact Hk|]. split; [exact X|]. eapply reach_like; [exact R|discriminate|discriminate].
  - exfalso. match goal with X : ev (NSeq d) s (No _ _ _), Y : ev (NAlts ds') s (Halt _) |- _ => rename X into H1; rename Y into H2 end.
    destruct (IH (pre ++ [d]) ltac:(rewrite <- app_assoc; reflexivity) ltac:(intros ->; inversion H2) s Hs (fun d0 Hd0 => Hd d0 (or_intror Hd0)) _ H2) as (k2 & c2 & _ & _ & (_ & _ & [])).
Qed.
Lemma in_effort : forall d ds, In d ds -> sequence_effort d <= alts_effort ds.
Proof. intros d ds. induction ds as [|d' ds IH]; [intros []|]. intros [->|H]; cbn; [lia|]. specialize (IH H). lia. Qed.
Lemma good_defs : forall d, Forall (Forall (P_term good)) d -> live (NDefs d) -> defs_effort d <= W -> bodies_few (NDefs d) -> forall s, within s -> cheap E F (NDefs d) s.
Proof.
  intros d HF Hl Hw Hb s Hs o H. pose proof Hl as (x & Ha). rewrite Forall_forall in HF. unfold defs_effort in Hw.
  assert (Hd : forall ts, In ts d -> cheap E F (NSeq ts) s).
  { intros ts Hin. pose proof (in_effort _ _ Hin). apply good_seq; auto; [exists x; eapply af_defs; eauto|lia|]. intros r s0 Hr. apply Hb. eapply st_defs; eauto. }
  assert (Hop : forall ch, (exists d0, In d0 d /\ begins (NSeq d0) ch) -> begins (NDefs d) ch). { intros ch (d0 & Hin & w & Hc). exists w. eapply lg_defs; eauto. }
  cbn [weight]. unfold defs_effort.
  assert (Hmany : forall o', d <> [] -> ev (NAlts d) s o' -> exists k c, work (NAlts d) s k /\ few E F (alts_effort d) c k /\ reach (begins (NDefs d)) (shut (NDefs d)) s o' c).
  { intros o' Hne Ho. destruct (alts_good d Hl d [] eq_refl Hne s Hs Hd o' Ho) as (k1 & c & Hk & X & R). exists k1, c. split; [exact Hk|]. split; [exact X|]. eapply reach_wrap; [exact Hop| |exact R]. auto. }
  inversion H; subst.
  - match goal with X : ev (NSeq ?t0) s o |- _ => rename X into H1; rename t0 into ts end. destruct (Hd ts (or_introl eq_refl) o H1) as (k1 & c & Hk & X & R). exists k1, c.
    split; [apply wk_defs_one; exact Hk|]. split; [apply (few_more _ _ (sequence_effort ts)); [exact X|cbn; lia]|].
    eapply reach_wrap; [| |exact R]; [intros ch Hc; apply Hop; exists ts; split; [left; reflexivity|exact Hc]|]. intros ch Hc Hx. apply Hc. eapply af_defs; [exact Hx|left; reflexivity].
  - exfalso. exact (proj1 Hcalm (live_part _ Hl)).
  - match goal with X : ev (NAlts _) s _ |- _ => destruct (Hmany _ ltac:(discriminate) X) as (k1 & c & Hk & X1 & R) end. exists (1 + k1), c. split; [apply wk_defs; exact Hk|]. split; [apply few_one; assumption|exact R].
  - exfalso. match goal with X : ev (NAlts _) s _ |- _ => destruct (Hmany _ ltac:(discriminate) X) as (k1 & c & _ & _ & (_ & _ & [])) end.
  - match goal with X : ev (NAlts _) s _ |- _ => destruct (Hmany _ ltac:(discriminate) X) as (k1 & c & Hk & X1 & R) end. exists (1 + k1), c. split; [apply wk_defs; exact Hk|]. split; [apply few_one; assumption|]. eapply reach_like; [exact R|discriminate|discriminate].
  - match goal with X : ev (NAlts _) s _ |- _ => destruct (Hmany _ ltac:(discriminate) X) as (k1 & c & Hk & X1 & R) end. exists (1 + k1), c. split; [apply wk_defs; exact Hk|]. split; [apply few_one; assumption|]. eapply reach_like; [exact R|discriminate|discriminate].
Qed.
Lemma cheap_here : forall p op sh s o, work (NPrim p) s 1 -> 1 <= primary_effort p -> o = Match s [] \/ (exists x s' e, o = No x s' e) ->
  exists k c, work (NPrim p) s k /\ few E F (primary_effort p) c k /\ reach op sh s o c.
Proof.
  intros p op sh s o Hw Hp Ho. exists 1, 0. split; [exact Hw|]. split; [split; nia|]. split; [lia|]. split; [lia|]. destruct Ho as [->|(x & s' & e & ->)]; [left; rewrite read_self; reflexivity|exact I].
Qed.
Lemma cheap_on : forall p s s' e, work (NPrim p) s 1 -> 1 <= primary_effort p -> ev (NPrim p) s (Match s' e) -> live (NPrim p) ->
  exists k c, work (NPrim p) s k /\ few E F (primary_effort p) c k /\ reach (begins (NPrim p)) (shut (NPrim p)) s (Match s' e) c.
Proof.
  intros p s s' e Hw Hp He Hl. destruct (ev_speaks rules cfg Hfwd (rules_gl rules Hstraight) _ _ _ He (part_gl_prim rules Hstraight _ (live_part _ Hl))) as (w & Hg & Hlw).
  exists 1, (read s s'). split; [exact Hw|]. split; [split; nia|]. split; [apply read_fits|]. split; [|left; reflexivity].
  intros Hc. destruct w as [|ch w]; [rewrite (goes_stay _ _ Hg), read_self in Hc; lia|]. exists ch. split; [exact (goes_hd _ _ _ _ Hg)|]. exists w. exact Hlw.
Qed.
Lemma good_prim : forall p, good p.
Proof.
  pose proof Hahead as (_ & Aopt & Arep & _). pose proof Hcalm as (_ & Kmeta & Kspec & Krep & _).
  induction p as [l d IH|l d IH|l d IH|l id|l w|l c|l] using primary_nested; intros Hl Hw Hb s Hs o H; pose proof Hl as (x & Ha).
  - change (primary_effort (POptional l d)) with (1 + defs_effort d) in *. cbn [weight]. change (primary_effort (POptional l d)) with (1 + defs_effort d).
    assert (Hld : live (NDefs d)) by (exists x; eapply af_optional; exact Ha).
    assert (Hd : forall s, within s -> cheap E F (NDefs d) s).
    { apply good_defs; auto; [lia|]. intros r s0 Hr. apply Hb. constructor. exact Hr. }
    assert (K : gives E F (1 * defs_effort d) (NTimes 0 1 0 (NDefs d)) (fun ch => (0 < 1)%N /\ begins (NDefs d) ch) (shut (NPrim (POptional l d))) s).
    { apply (times_counted (NDefs d) (begins (NDefs d)) (shut (NDefs d)) (shut (NPrim (POptional l d))) (defs_effort d) 0 1); auto.
      - discriminate.
      - intros Hlt. lia.
      - intros ch Hc Hx. apply Hc. eapply af_optional. exact Hx.
      - right. intros ch Hc Hx. exact (Aopt _ _ _ Hx Hc). }
    inversion H; subst. match goal with X : ev (NTimes _ _ _ _) s o |- _ => destruct (K o X) as (k1 & c & Hk & X1 & R) end. rewrite Nat.mul_1_l in X1.
    exists (1 + k1), c. split; [apply wk_optional; exact Hk|]. split; [apply few_one; assumption|]. eapply reach_wrap; [| |exact R]; [|auto]. intros ch (_ & w & Hc). exists w. apply lg_optional. exact Hc.
  - change (primary_effort (PRepeated l d)) with (1 + 2 * defs_effort d) in *. cbn [weight]. change (primary_effort (PRepeated l d)) with (1 + 2 * defs_effort d).
    assert (Hld : live (NDefs d)) by (exists x; eapply af_repeated; exact Ha).
    assert (Hd : forall s, within s -> cheap E F (NDefs d) s).
    { apply good_defs; auto; [lia|]. intros r s0 Hr. apply Hb. constructor. exact Hr. }
    inversion H; subst. match goal with X : ev (NTimes _ _ _ _) s o |- _ => rename X into H1 end.
    destruct (times_free 0 0 (NDefs d) (begins (NDefs d)) (shut (NDefs d)) (shut (NPrim (PRepeated l d))) (defs_effort d) _ s o H1 eq_refl ltac:(lia) Hs Hd) as (k1 & c & Hk & (X1 & X2) & R).
    { intros s0 s0' e0 He Hat. apply (Krep l d (live_part _ Hl)). exact (stay_words rules cfg Hstraight Hcalm _ _ _ _ He (part_gl_defs rules Hstraight _ (live_part _ Hld)) Hat). }
    { intros ch Hc Hbg. apply Hc. eapply af_round; eauto. }
    { intros ch Hc Hx. apply Hc. eapply af_repeated. exact Hx. }
    { intros ch Hc Hx. exact (Arep _ _ _ Hx Hc). }
    exists (1 + k1), c. split; [apply wk_repeated; exact Hk|]. split; [apply few_one; [exact HE|]; split; intros Hc; [specialize (X1 Hc); nia|exact (X2 Hc)]|].
    eapply reach_wrap; [| |exact R]; [|auto]. intros ch (w & Hc). exists w. rewrite <- (app_nil_r (ch :: w)). apply lg_repeated; [exact Hc|apply lg_stop].
  - change (primary_effort (PGrouped l d)) with (defs_effort d) in *. cbn [weight]. change (primary_effort (PGrouped l d)) with (defs_effort d).
    assert (Hld : live (NDefs d)) by (exists x; eapply af_group; exact Ha).
    assert (Hd : forall s, within s -> cheap E F (NDefs d) s).
    { apply good_defs; auto. intros r s0 Hr. apply Hb. constructor. exact Hr. }
    inversion H; subst. match goal with X : ev (NDefs _) s o |- _ => destruct (Hd s Hs o X) as (k1 & c & Hk & X1 & R) end.
    exists k1, c. split; [apply wk_grouped; exact Hk|]. split; [exact X1|]. eapply reach_wrap; [| |exact R]; [intros ch (w & Hc); exists w; apply lg_group; exact Hc|]. intros ch Hc Hx. apply Hc. eapply af_group. exact Hx.
  - inversion H; subst. match goal with X : ev (NRef _ _) _ _ |- _ => rename X into H1 end.
    assert (Hdef : defined rules id) by (eapply Kmeta; exact (live_part _ Hl)).
    assert (K : forall r o', names rules id r -> ev (NDefs (r_defs r)) s o' -> (forall s' e, o = Match s' e -> exists e0, o' = Match s' e0) -> (forall h, o <> Halt h) ->
      exists k c, work (NPrim (PMeta l id)) s k /\ few E F (primary_effort (PMeta l id)) c k /\ reach (begins (NPrim (PMeta l id))) (shut (NPrim (PMeta l id))) s o c).
    { intros r o' Hn Ho' Hlike Hnh. destruct (Hb r s (st_meta _ _ _ _ _ Hn) ltac:(exists x; eapply af_meta; eauto) Hs o' Ho') as (k1 & c & Hk & R & X1 & X2).
      exists (1 + k1), c. split; [apply wk_meta; eapply wk_ref; eauto|]. split; [cbn [primary_effort]; split; intros Hc; [specialize (X1 Hc)|specialize (X2 Hc)]; lia|].
      eapply reach_wrap; [| |eapply reach_like; [exact R|exact Hlike|exact Hnh]]; [intros ch (w & Hc); exists w; eapply lg_meta; eauto|]. intros ch Hc Hx. apply Hc. eapply af_meta; eauto. }
    inversion H1; subst.
    + eapply K; [eassumption|eassumption|intros ? ? [= <- <-]; eauto|discriminate].
    + eapply K; [eassumption|eassumption|discriminate|discriminate].
    + exfalso. match goal with X : names rules id ?r, Y : ev (NDefs _) s (Halt _) |- _ => destruct (Hb r s (st_meta _ _ _ _ _ X) ltac:(exists x; eapply af_meta; eauto) Hs _ Y) as (k1 & c & _ & (_ & _ & []) & _) end.
    + contradiction.
  - inversion H; subst; [apply cheap_on; auto; apply wk_terminal|]. apply cheap_here; [apply wk_terminal|cbn; lia|right; eauto].
  - inversion H; subst; try (exfalso; eapply Hfwd; eassumption).
    + apply cheap_on; auto. eapply wk_special; [eassumption|]. intros (? & ? & ?). discriminate.
    + apply cheap_here; [eapply wk_special; [eassumption|]; intros (? & ? & ?); discriminate|cbn; lia|right; eauto].
    + exfalso. eapply Kspec; [exact (live_part _ Hl)|eassumption].
  - inversion H; subst. apply cheap_here; [apply wk_empty|cbn; lia|left; reflexivity].
Qed.
Lemma all_good : forall n, plain n -> live n -> weight n <= W -> bodies_few n -> forall s, within s -> cheap E F n s.
Proof.
  intros n Hp Hl Hw Hb s Hs.
  assert (Ht0 : forall t, P_term good t) by (intros t; split; [apply good_prim|]; unfold P_exc; destruct (t_exc t); [apply good_prim|exact I]).
  destruct n as [d|d|ts|t|[n p]|p| | |]; try contradiction; cbn [weight] in *.
  - apply good_defs; auto. rewrite Forall_forall. intros ts _. rewrite Forall_forall. auto.
  - apply good_seq; auto. rewrite Forall_forall. auto.
  - apply good_term; auto.
  - apply good_factor; auto. apply good_prim.
  - apply good_prim; auto.
Qed.
End Level.
Hypothesis HW : W = syntax_effort rules.
Hypothesis HBd : B = steps_at_rest rules.
Hypothesis HLd : L = steps_on_the_way rules.
Lemma rule_weight : forall r, In r rules -> defs_effort (r_defs r) <= W.
Proof.
  rewrite HW. intros r. generalize rules. induction rules0 as [|r' rs IH]; [intros []|]. intros [->|H]; cbn [syntax_effort]; [lia|]. specialize (IH H). lia.
Qed.
Lemma body_few : forall k, (forall n s, plain n -> live n -> weight n <= W -> length (p_rest s) < k -> cheap B L n s) ->
  forall d r s, d <= S (length rules) -> chain rule (tries rules cfg) d r -> In r rules -> live (NDefs (r_defs r)) -> length (p_rest s) <= k -> yields (resting W d) (d * (W * B + 1)) r s.
Proof.
  intros k Hbelow. induction d as [|d IH]; intros r s Hd Hch Hin Hl Hs; [contradiction|].
  assert (HEB : resting W d <= B) by (rewrite HBd; unfold steps_at_rest; rewrite <- HW; apply resting_up; lia).
  assert (HFL : d * (W * B + 1) <= L) by (rewrite HLd; unfold steps_on_the_way; rewrite <- HW, <- HBd; nia).
  assert (HE : 1 <= resting W d) by (apply (resting_up W 0 d); lia).
  pose proof (rule_weight r Hin) as Hw.
  assert (K : cheap (resting W d) (d * (W * B + 1)) (NDefs (r_defs r)) s).
  { apply (all_good k (resting W d) (d * (W * B + 1)) HE HEB HFL Hbelow (NDefs (r_defs r)) I Hl Hw); [|exact Hs].
    intros r' s' Hr' Hl' Hs'. apply IH; [lia|apply Hch; split; assumption|eapply starts_in; exact Hr'|exact Hl'|exact Hs']. }
  intros o H. destruct (K o H) as (k1 & c & Hk & (K1 & K2) & R). cbn [weight] in K1, K2. exists k1, c. split; [exact Hk|]. split; [exact R|]. cbn [resting Nat.mul]. split; intros Hc; [specialize (K1 Hc)|specialize (K2 Hc)]; nia.
Qed.
Lemma nodes_few : forall k n s, plain n -> live n -> weight n <= W -> length (p_rest s) < k -> cheap B L n s.
Proof.
  induction k as [|k IH]; intros n s Hp Hl Hw Hs; [lia|].
  apply (all_good k B L HB (le_n B) (le_n L) IH n Hp Hl Hw); [|unfold within; lia].
  intros r s' Hr Hl' Hs'. pose proof (body_few k IH (S (length rules)) r s' (le_n _) (tries_chain rules cfg Hleft r) (starts_in _ _ _ _ Hr) Hl' Hs') as K.
  replace (resting W (S (length rules))) with B in K by (rewrite HBd, HW; reflexivity).
  replace (S (length rules) * (W * B + 1)) with L in K by (rewrite HLd; unfold steps_on_the_way; rewrite <- HW, <- HBd; reflexivity). exact K.
Qed.
Lemma rule_few : forall r s o, In r rules -> live (NDefs (r_defs r)) -> ev (NDefs (r_defs r)) s o ->
  exists k, work (NDefs (r_defs r)) s k /\ 1 + k <= step_bound rules (length (p_rest s)).
Proof.
  intros r s o Hin Hl H.
  destruct (body_few (length (p_rest s)) (nodes_few (length (p_rest s))) (S (length rules)) r s (le_n _) (tries_chain rules cfg Hleft r) Hin Hl (le_n _) o H) as (k & c & Hk & (R1 & _) & K1 & K2).
  replace (resting W (S (length rules))) with B in K1 by (rewrite HBd, HW; reflexivity).
  replace (S (length rules) * (W * B + 1)) with L in K2 by (rewrite HLd; unfold steps_on_the_way; rewrite <- HW, <- HBd; reflexivity).
  exists k. split; [exact Hk|]. unfold step_bound. rewrite <- HW, <- HBd, <- HLd. fold Q.
  destruct (Nat.eq_dec c 0) as [E0|E0]; [specialize (K1 E0); lia|]. specialize (K2 ltac:(lia)). nia.
Qed.
End Linear.
