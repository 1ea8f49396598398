(** A parse that ends takes at most exponential time: a rule that is tried again at the
    place where it began, before it has ended, never ends. *)
From Coq Require Import String List NArith Arith Bool Lia Relations.
From Verif Require Import Base Ident Ast Graph SpecText SpecSyntax TextFacts SyntaxFacts SpecParse SpecTotal SpecWork SpecCap ParseFacts EvFacts WorkFacts WorkApi TotalFacts.
Import ListNotations.
Open Scope nat_scope.

Section Cap.
Variable rules : list rule.
Variable cfg : config.
Hypothesis Hn : no_repeat rules.
Hypothesis Hd : no_dollar rules.
Notation ev := (ev rules cfg).
Notation work := (work rules cfg).
Let D := S (length rules).
Let B := syntax_load rules.

Lemma base_two : 2 <= B.
Proof. unfold B. induction rules as [|r rs IH]; cbn; [lia|]. assert (H : forall r, In r rs -> True) by auto. clear -IH. unfold defs_load. 
  assert (2 <= syntax_load rs). { clear. induction rs as [|r rs IH]; cbn; lia. } lia. Qed.
Lemma rule_load : forall r, In r rules -> 1 + defs_load (r_defs r) <= B.
Proof.
  intros r. unfold B. induction rules as [|r' rs IH]; [intros []|]. assert (Z : 2 <= syntax_load rs) by (clear; induction rs as [|r rs IH]; cbn; lia).
  intros [->|H]; cbn [syntax_load]; [lia|].
  assert (K : forall rs r, In r rs -> 1 + defs_load (r_defs r) <= syntax_load rs).
  { clear. induction rs as [|r' rs IH]; intros r []; cbn [syntax_load]; [subst; assert (Z : 2 <= syntax_load rs) by (clear; induction rs as [|q rs IH]; cbn; lia); lia|]. specialize (IH _ H). lia. }
  specialize (K _ _ H). lia.
Qed.
Definition cap (m d : nat) : nat := B ^ (m * S D + d).
Lemma cap_one : forall m d, 1 <= cap m d.
Proof. intros m d. unfold cap. pose proof base_two. pose proof (Nat.pow_nonzero B (m * S D + d) ltac:(lia)). lia. Qed.
Lemma cap_up : forall m m' d, m <= m' -> cap m d <= cap m' d.
Proof. intros m m' d H. unfold cap. pose proof base_two. apply Nat.pow_le_mono_r; [lia|nia]. Qed.
Lemma cap_next : forall m d, B * cap m d = cap m (S d).
Proof. intros m d. unfold cap. rewrite Nat.add_succ_r. reflexivity. Qed.
Lemma cap_shorter : forall m m' d, m' < m -> 2 * cap m' D <= cap m d.
Proof.
  intros m m' d H. pose proof base_two. apply Nat.le_trans with (B * cap m' D); [apply Nat.mul_le_mono_r; assumption|]. rewrite cap_next. unfold cap. apply Nat.pow_le_mono_r; [lia|]. nia.
Qed.

Definition load (n : node) : nat :=
  match n with
  | NPrim p => primary_load p
  | NFactor f => factor_load f
  | NTerm t => term_load t
  | NSeq ts => sequence_load ts
  | NDefs ds => defs_load ds
  | NAlts ds => alts_load ds
  | _ => 1
  end.
Definition rounds_left (max i : N) : nat := if N.eqb max max_count then 2 else N.to_nat (max - i).
Definition full (n : node) : nat :=
  match n with NTimes _ max i b => rounds_left max i * load b | _ => load n end.
Definition plain (n : node) : Prop := match n with NTimes _ _ _ b => match b with NPrim _ | NDefs _ => True | _ => False end | _ => True end.

Lemma prim_group : forall l d, primary_load (PGrouped l d) = defs_load d.
Proof. reflexivity. Qed.
Lemma prim_optional : forall l d, primary_load (POptional l d) = 1 + defs_load d.
Proof. reflexivity. Qed.
Lemma prim_repeated : forall l d, primary_load (PRepeated l d) = 1 + 2 * defs_load d.
Proof. reflexivity. Qed.
Lemma goes_short : forall s w s', goes s w s' -> length w <= length (p_rest s).
Proof. intros s w s' (H & _). rewrite H, app_length. lia. Qed.
Lemma max_big : 2 <= N.to_nat max_count.
Proof. assert (H : (2 <= max_count)%N) by (unfold max_count; lia). lia. Qed.

(** The rules that are being tried from [s] on, [k] units being a part of their work. *)
Definition extra (n : node) : nat := match n with NFwd _ => 1 | _ => 0 end.
Definition open (s : pst) (k : nat) (seen : list rule) : Prop :=
  NoDup seen /\ incl seen rules /\ forall r, In r seen -> exists K, work (NDefs (r_defs r)) s K /\ k <= K.
Definition capped (n : node) (s : pst) (k : nat) : Prop :=
  plain n -> forall seen, open s (k + extra n) seen -> k <= full n * cap (length (p_rest s)) (D - length seen).
Lemma open_none : forall s k, open s k [].
Proof. intros s k. split; [constructor|]. split; [intros r []|intros r []]. Qed.
Lemma open_less : forall s k k' seen, open s k seen -> k' <= k -> open s k' seen.
Proof. intros s k k' seen (A & C & H) L. split; [exact A|]. split; [exact C|]. intros r Hr. destruct (H r Hr) as (K & W & Q). exists K. split; [exact W|lia]. Qed.
Lemma open_rule : forall s k seen r, open s (1 + k) seen -> In r rules -> work (NDefs (r_defs r)) s k ->
  open s k (r :: seen) /\ D - length seen = S (D - length (r :: seen)).
Proof.
  intros s k seen r (A & C & H) Hr W.
  assert (Hs : ~ In r seen). { intros K. destruct (H r K) as (K' & W' & Q). rewrite (work_fun rules cfg Hn Hd _ _ _ W' _ W) in Q. lia. }
  assert (N2 : NoDup (r :: seen)) by (constructor; assumption). assert (I2 : incl (r :: seen) rules) by (intros x [<-|Hx]; auto).
  split; [split; [exact N2|split; [exact I2|]]|].
  - intros x [<-|Hx]; [exists k; auto|]. destruct (H x Hx) as (K & W' & Q). exists K. split; [exact W'|lia].
  - pose proof (NoDup_incl_length N2 I2) as L. unfold D. cbn [length] in *. lia.
Qed.
Lemma go_on : forall n s s' k seen, capped n s' k -> plain n -> (length (p_rest s') < length (p_rest s) \/ s' = s) -> open s (k + extra n) seen ->
  k <= full n * cap (length (p_rest s)) (D - length seen).
Proof.
  intros n s s' k seen H Hp [L| ->] Hs.
  - specialize (H Hp [] (open_none _ _)). cbn [length] in H. rewrite Nat.sub_0_r in H. pose proof (cap_shorter _ _ (D - length seen) L). nia.
  - apply H; [exact Hp|exact Hs].
Qed.
Lemma either : forall s s', moved s s' -> length (p_rest s') < length (p_rest s) \/ s' = s.
Proof. intros s s' Hm. destruct (Nat.lt_ge_cases (length (p_rest s')) (length (p_rest s))) as [L|L]; [left; exact L|right; apply moved_same; assumption]. Qed.
Lemma go_far : forall n s s' k d, capped n s' k -> plain n -> length (p_rest s') < length (p_rest s) -> 2 * k <= full n * cap (length (p_rest s)) d.
Proof. intros n s s' k d H Hp L. specialize (H Hp [] (open_none _ _)). cbn [length] in H. rewrite Nat.sub_0_r in H. pose proof (cap_shorter _ _ d L). nia. Qed.

Theorem work_capped : forall n s k, work n s k -> capped n s k.
Proof.
  intros n s k H. induction H; intros Hp seen Ho; cbn [full load extra] in *; pose proof (cap_one (length (p_rest s)) (D - length seen)) as Hone.
  - cbn [primary_load]. lia.
  - cbn [primary_load]. lia.
  - cbn [primary_load]. lia.
  - cbn [primary_load]. pose proof (scanned_moved _ _ _ _ H) as Hm. cbn in Hm.
    assert (k <= 1 * cap (length (p_rest s)) (D - length seen)); [|lia]. apply (go_on (NFwd id) s s1); [exact IHwork|exact I|apply either; exact Hm|].
    eapply open_less; [exact Ho|cbn; lia].
  - cbn [primary_load]. lia.
  - rewrite Nat.add_comm in Ho. destruct (open_rule _ _ _ _ Ho (proj1 H) H0) as (Ho' & E). rewrite E, <- cap_next.
    pose proof (rule_load r (proj1 H)) as Hr. specialize (IHwork I (r :: seen)). cbn [extra full load] in IHwork. rewrite Nat.add_0_r in IHwork. specialize (IHwork Ho'). nia.
  - apply IHwork; [exact I|]. eapply open_less; [exact Ho|cbn; lia].
  - cbn [primary_load]. apply IHwork; [exact I|exact Ho].
  - rewrite Nat.add_0_r in Ho. destruct (open_rule _ _ _ _ Ho (proj1 H) H0) as (Ho' & E). rewrite E, <- cap_next.
    pose proof (rule_load r (proj1 H)) as Hr. specialize (IHwork I (r :: seen)). cbn [extra full load] in IHwork. rewrite Nat.add_0_r in IHwork. specialize (IHwork Ho').
    pose proof (cap_one (length (p_rest s)) (D - length (r :: seen))). nia.
  - lia.
  - rewrite prim_optional. assert (K : k <= rounds_left 1 0 * defs_load d * cap (length (p_rest s)) (D - length seen)). { apply IHwork; [exact I|]. eapply open_less; [exact Ho|cbn; lia]. }
    change (rounds_left 1 0) with 1 in K. nia.
  - rewrite prim_repeated. assert (K : k <= rounds_left max_count 0 * defs_load d * cap (length (p_rest s)) (D - length seen)). { apply IHwork; [exact I|]. eapply open_less; [exact Ho|cbn; lia]. }
    unfold rounds_left in K. rewrite N.eqb_refl in K. nia.
  - rewrite prim_group. apply IHwork; [exact I|exact Ho].
  - assert (K : k <= primary_load p * cap (length (p_rest s)) (D - length seen)). { apply IHwork; [exact I|exact Ho]. }
    unfold factor_load. cbn [f_rep f_prim]. change (N.to_nat (N.max 1 1)) with 1. nia.
  - assert (K : k <= rounds_left n 0 * primary_load p * cap (length (p_rest s)) (D - length seen)). { apply IHwork; [exact I|]. eapply open_less; [exact Ho|cbn; lia]. }
    unfold factor_load. cbn [f_rep f_prim]. assert (R : rounds_left n 0 <= N.to_nat (N.max 1 n)). { unfold rounds_left. destruct (N.eqb_spec n max_count) as [->|_]; [pose proof max_big|]; lia. }
    assert (rounds_left n 0 * primary_load p <= N.to_nat (N.max 1 n) * primary_load p) by (apply Nat.mul_le_mono_r; exact R). nia.
  - lia.
  - assert (K : k <= load b * cap (length (p_rest s)) (D - length seen)). { destruct b; try contradiction; (apply IHwork; [exact I|exact Ho]). }
    assert (R : 1 <= rounds_left max i). { unfold rounds_left. destruct (N.eqb max max_count); lia. }
    assert (1 * load b <= rounds_left max i * load b) by (apply Nat.mul_le_mono_r; exact R). nia.
  - assert (K : k <= load b * cap (length (p_rest s)) (D - length seen)). { destruct b; try contradiction; (apply IHwork1; [exact I|eapply open_less; [exact Ho|cbn; lia]]). }
    pose proof (ev_moved _ _ _ _ _ H1) as Hm. cbn in Hm. cbn [full] in IHwork2.
    unfold rounds_left. destruct (N.eqb_spec max max_count) as [E|E].
    + assert (L : length (p_rest s') < length (p_rest s)). { destruct (either _ _ Hm) as [L| ->]; [exact L|]. destruct (H0 E). reflexivity. }
      pose proof (go_far _ _ _ _ (D - length seen) IHwork2 Hp L) as K2. cbn [full] in K2. unfold rounds_left in K2. rewrite (proj2 (N.eqb_eq _ _) E) in K2. nia.
    + assert (K2 : k2 <= rounds_left max (i + 1) * load b * cap (length (p_rest s)) (D - length seen)). { apply (go_on (NTimes min max (i + 1) b) s s'); [exact IHwork2|exact Hp|apply either; exact Hm|]. eapply open_less; [exact Ho|cbn; lia]. }
      unfold rounds_left in K2. rewrite (proj2 (N.eqb_neq _ _) E) in K2. replace (N.to_nat (max - i)) with (S (N.to_nat (max - (i + 1)))) by lia. nia.
  - unfold term_load. cbn [t_factor t_exc]. rewrite Nat.add_0_r. apply IHwork; [exact I|exact Ho].
  - unfold term_load. cbn [t_factor t_exc]. assert (K : k <= factor_load f * cap (length (p_rest s)) (D - length seen)). { apply IHwork; [exact I|]. eapply open_less; [exact Ho|cbn; lia]. } nia.
  - unfold term_load. cbn [t_factor t_exc]. assert (K : k <= factor_load f * cap (length (p_rest s)) (D - length seen)). { apply IHwork1; [exact I|]. eapply open_less; [exact Ho|cbn; lia]. }
    assert (K2 : k2 <= factor_load e * cap (length (p_rest s)) (D - length seen)). { apply (go_on (NFactor e) s (Pst w (p_at s))); [exact IHwork2|exact I| |eapply open_less; [exact Ho|cbn; lia]].
      cbn [p_rest]. pose proof (goes_short _ _ _ H0) as L. destruct (Nat.eq_dec (length w) (length (p_rest s))) as [E|E]; [right|left; lia].
      destruct H0 as (Hw & _). destruct s as [rest at_]. cbn [p_rest p_at] in *. f_equal. rewrite Hw in E |- *. rewrite app_length in E. destruct (p_rest s'); [rewrite app_nil_r; reflexivity|cbn in E; lia]. }
    nia.
  - lia.
  - destruct t as [[n p] x]. cbn in H. destruct x; [destruct p; discriminate|]. destruct p as [| |l d0| | | |]; try discriminate. destruct (N.eqb n 1) eqn:En in H; [|discriminate]. apply N.eqb_eq in En. subst n. injection H as <-.
    assert (K : k <= defs_load d0 * cap (length (p_rest s)) (D - length seen)). { apply IHwork; [exact I|exact Ho]. }
    assert (Q : defs_load d0 <= sequence_load (Term (Factor 1 (PGrouped l d0)) None :: ts)). { cbn [sequence_load]. unfold term_load. cbn [t_factor t_exc]. unfold factor_load. cbn [f_prim f_rep]. rewrite prim_group.
      change (N.to_nat (N.max 1 1)) with 1. lia. }
    eapply Nat.le_trans; [exact K|]. apply Nat.mul_le_mono_r. exact Q.
  - cbn [sequence_load]. assert (K : k <= term_load t * cap (length (p_rest s)) (D - length seen)). { apply IHwork1; [exact I|]. eapply open_less; [exact Ho|cbn; lia]. }
    pose proof (ev_moved _ _ _ _ _ H0) as Hm. cbn in Hm.
    assert (K2 : k2 <= sequence_load ts * cap (length (p_rest s)) (D - length seen)). { apply (go_on (NSeq ts) s s'); [exact IHwork2|exact I|apply either; exact Hm|]. eapply open_less; [exact Ho|cbn; lia]. }
    nia.
  - cbn [sequence_load]. assert (K : k <= term_load t * cap (length (p_rest s)) (D - length seen)). { apply IHwork; [exact I|exact Ho]. } nia.
  - unfold defs_load. cbn [alts_load]. assert (K : k <= sequence_load d * cap (length (p_rest s)) (D - length seen)). { apply IHwork; [exact I|exact Ho]. } nia.
  - unfold defs_load. cbn [alts_load]. lia.
  - assert (K : k <= alts_load (d1 :: d2 :: ds) * cap (length (p_rest s)) (D - length seen)). { apply IHwork; [exact I|]. eapply open_less; [exact Ho|cbn; lia]. } unfold defs_load. nia.
  - lia.
  - cbn [alts_load]. assert (K : k <= sequence_load d * cap (length (p_rest s)) (D - length seen)). { apply IHwork; [exact I|exact Ho]. } nia.
  - cbn [alts_load]. assert (K : k <= sequence_load d * cap (length (p_rest s)) (D - length seen)). { apply IHwork1; [exact I|]. eapply open_less; [exact Ho|cbn; lia]. }
    assert (K2 : k2 <= alts_load ds * cap (length (p_rest s)) (D - length seen)). { apply IHwork2; [exact I|]. eapply open_less; [exact Ho|cbn; lia]. } nia.
Qed.

Theorem labour_capped : forall id s k, labour rules cfg id s k -> k <= step_cap rules (length (p_rest s)).
Proof.
  intros id s k (r & Hr & Hw). apply work_capped in Hw. specialize (Hw I [] (open_none _ _)). cbn [full load length] in Hw. rewrite Nat.sub_0_r in Hw.
  eapply Nat.le_trans; [exact Hw|]. rewrite Nat.mul_1_l. unfold step_cap, cap, D. apply Nat.pow_le_mono_r; [pose proof base_two; unfold B in *; lia|]. nia.
Qed.
End Cap.
