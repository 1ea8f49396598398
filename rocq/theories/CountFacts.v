(** The number of events grows with the text at most in proportion, for tidy rules. *)
From Coq Require Import String List NArith Arith Bool Lia Relations.
From Verif Require Import Base Ident Tokenizer Ast Lex Syntax Io Graph Machine SpecText SpecSyntax SpecIo TextFacts SyntaxFacts IoFacts SpecParse SpecMachine SpecEvents SpecTotal SpecCount Pure PureFacts ParseFacts CodeFacts RunFacts EvFacts MachineFacts EventFacts TotalFacts DepthFacts.
Import ListNotations.
Open Scope nat_scope.

Definition read (s s' : pst) : nat := length (p_rest s) - length (p_rest s').
Lemma read_two : forall s s1 s2, moved s s1 -> moved s1 s2 -> read s s2 = read s s1 + read s1 s2.
Proof. intros s s1 s2 H1 H2. apply moved_len in H1. apply moved_len in H2. unfold read. lia. Qed.
Lemma read_none : forall s s', moved s s' -> read s s' = 0 -> s' = s.
Proof. intros s s' H E. apply moved_same; [exact H|]. pose proof (moved_len _ _ H). unfold read in E. lia. Qed.
Lemma read_less : forall s s', 1 <= read s s' -> length (p_rest s') < length (p_rest s).
Proof. intros s s' E. unfold read in E. lia. Qed.

Lemma idle_more : forall w m d, idle w m d <= idle w m (S d).
Proof. induction d as [|d IH]; [cbn; lia|]. change (2 + m + w * idle w m d <= 2 + m + w * idle w m (S d)). nia. Qed.
Lemma idle_up : forall w m d d', d <= d' -> idle w m d <= idle w m d'.
Proof. intros w m d d' H. induction H; [lia|]. pose proof (idle_more w m m0). lia. Qed.

Section Count.
Variable rules : list rule.
Variable cfg : config.
Variable M : nat.
Hypothesis Hfr : frugal M cfg.
Hypothesis Hfwd : no_forwarding cfg.
Hypothesis Htidy : Forall (fun r => tidy (NDefs (r_defs r))) rules.
Notation ev := (ev rules cfg).
Notation starts := (starts rules cfg).
Variables B L W : nat.
Hypothesis HB : 1 + M <= B.
Let Q := L + W * B.

(** [x] events where [c] characters are read, by something of weight [w]; [E] and [F] bound
    the rules tried before anything is read. *)
Definition few (E F w c x : nat) : Prop :=
  (c = 0 -> x <= w * E) /\ (1 <= c -> x <= (2 * c - 2) * Q + F + w * B).
Lemma few_two : forall E F w1 c1 x1 w2 c2 x2, E <= B -> F <= L -> few E F w1 c1 x1 -> (c1 = 0 -> few E F w2 c2 x2) -> (1 <= c1 -> few B L w2 c2 x2) ->
  few E F (w1 + w2) (c1 + c2) (x1 + x2).
Proof.
  intros E F w1 c1 x1 w2 c2 x2 HE HF (A1 & A2) H0 H1. split; intros Hc.
  - assert (c1 = 0) by lia. assert (c2 = 0) by lia. destruct (H0 H) as (K & _). specialize (A1 H). specialize (K H2). nia.
  - destruct (Nat.eq_dec c1 0) as [E1|E1].
    + destruct (H0 E1) as (_ & K). specialize (A1 E1). specialize (K ltac:(lia)). subst c1. cbn [Nat.add]. nia.
    + specialize (A2 ltac:(lia)). destruct (H1 ltac:(lia)) as (K1 & K2). destruct (Nat.eq_dec c2 0) as [E2|E2].
      * specialize (K1 E2). subst c2. rewrite Nat.add_0_r. nia.
      * specialize (K2 ltac:(lia)). assert (HQ : L <= Q) by (unfold Q; lia).
        replace (2 * (c1 + c2) - 2) with ((2 * c1 - 2) + (2 * c2 - 2) + 2) by lia. nia.
Qed.
Lemma few_more : forall E F w w' c x, few E F w c x -> w <= w' -> few E F w' c x.
Proof. intros E F w w' c x (A & K) H. split; intros Hc; [specialize (A Hc)|specialize (K Hc)]; nia. Qed.
Lemma few_loop : forall E F w c1 x1 c2 x2, E <= B -> F <= L -> w <= W -> 1 <= c1 -> few E F w c1 x1 -> few B L w c2 x2 \/ (c2 = 0 /\ x2 = 0) -> (c2 = 0 -> x2 = 0) -> few E F w (c1 + c2) (x1 + x2).
Proof.
  intros E F w c1 x1 c2 x2 HE HF Hw Hc (A1 & A2) H0 H2. split; intros Hcc; [lia|]. specialize (A2 Hc). destruct (Nat.eq_dec c2 0) as [E2|E2].
  - rewrite (H2 E2). subst c2. rewrite !Nat.add_0_r. exact A2.
  - destruct H0 as [(_ & K)|(K & _)]; [|contradiction]. specialize (K ltac:(lia)). assert (HQ : L + w * B <= Q) by (unfold Q; nia).
    replace (2 * (c1 + c2) - 2) with ((2 * c1 - 2) + (2 * c2 - 2) + 2) by lia. nia.
Qed.
Definition weight (n : node) : nat :=
  match n with
  | NPrim p => primary_weight p
  | NFactor f => factor_weight f
  | NTerm t => term_weight t
  | NSeq ts => sequence_weight ts
  | NDefs ds => defs_weight ds
  | _ => 0
  end.
Definition plain (n : node) : Prop := match n with NPrim _ | NFactor _ | NTerm _ | NSeq _ | NDefs _ => True | _ => False end.
Definition gives (E F w : nat) (n : node) (s : pst) : Prop :=
  forall s' e, ev n s (Match s' e) -> few E F w (read s s') (length e).
Definition yields (E F : nat) (r : rule) (s : pst) : Prop :=
  forall s' e, ev (NDefs (r_defs r)) s (Match s' e) ->
    (read s s' = 0 -> 2 + length e <= E) /\ (1 <= read s s' -> 2 + length e <= (2 * read s s' - 2) * Q + F).

Section Level.
Variables k E F : nat.
Hypothesis HE : 1 + M <= E.
Hypothesis HEB : E <= B.
Hypothesis HFL : F <= L.
Definition within (s : pst) : Prop := length (p_rest s) <= k.
Hypothesis Hbelow : forall n s, plain n -> tidy n -> weight n <= W -> length (p_rest s) < k -> gives B L (weight n) n s.
Definition bodies_few (n : node) : Prop := forall r s, starts n r -> within s -> yields E F r s.
Lemma within_moved : forall s s', within s -> moved s s' -> within s'.
Proof. intros s s' H Hm. pose proof (moved_len _ _ Hm). unfold within in *. lia. Qed.

(** Repetitions that have to read something each time. *)
Lemma times_free : forall mn i b n s o, ev n s o -> n = NTimes mn max_count i b ->
  plain b -> tidy b -> clean b -> weight b <= W -> within s -> (forall s, within s -> gives E F (weight b) b s) ->
  match o with Match s' e => few E F (weight b) (read s s') (length e) /\ (read s s' = 0 -> e = []) | _ => True end.
Proof.
  intros mn i b n s o H. revert i. induction H; intros i0 En Hp Ht Hcl Hw Hs Hb; try discriminate En; try exact I; injection En as -> -> -> ->.
  - unfold read. rewrite Nat.sub_diag. split; [split; intros; cbn; lia|reflexivity].
  - pose proof (clean_ok _ _ _ Hcl _ _ H1) as Hl. cbn in Hl. subst evs. unfold read. rewrite Nat.sub_diag. split; [split; intros; cbn; lia|reflexivity].
  - pose proof (ev_moved _ _ _ _ _ H1) as Hm1. pose proof (ev_moved _ _ _ _ _ H2) as Hm2. cbn in Hm1, Hm2.
    assert (Hc : 1 <= read s s'). { destruct (Nat.eq_dec (read s s') 0) as [E0|]; [|lia]. exfalso. apply (H0 eq_refl). rewrite (read_none _ _ Hm1 E0). reflexivity. }
    rewrite (read_two _ _ _ Hm1 Hm2), app_length.
    assert (K : few B L (weight b) (read s' s2) (length evs2) /\ (read s' s2 = 0 -> evs2 = [])).
    { clear IHev1. pose proof (IHev2 (i0 + 1)%N eq_refl Hp Ht Hcl Hw (within_moved _ _ Hs Hm1) Hb) as (K1 & K2). split; [|exact K2].
      destruct K1 as (A1 & A2). split; intros Hx; [specialize (A1 Hx)|specialize (A2 Hx)]; nia. }
    destruct K as (K1 & K2). split; [|intros E0; lia]. apply few_loop; auto; [apply Hb; assumption|]. intros E0. rewrite (K2 E0). reflexivity.
Qed.
(** ... and counted ones. *)
Lemma times_counted : forall b, plain b -> tidy b -> weight b <= W -> forall j mn mx i, N.to_nat (mx - i) = j -> mn = mx \/ clean b -> forall s, within s ->
  (forall s, within s -> gives E F (weight b) b s) -> j * weight b <= W ->
  gives E F (j * weight b) (NTimes mn mx i b) s.
Proof.
  intros b Hp Ht Hw. induction j as [|j IH]; intros mn mx i Hj Hc s Hs Hb HjW s' e H.
  - inversion H; subst; try lia. unfold read. rewrite Nat.sub_diag. split; intros; cbn; lia.
  - inversion H; subst; try lia.
    + destruct Hc as [->|Hc]; [lia|]. match goal with X : ev b s' (No _ _ _) |- _ => pose proof (clean_ok _ _ _ Hc _ _ X) as Hl end. cbn in Hl. subst e. unfold read. rewrite Nat.sub_diag. split; intros; cbn; lia.
    + match goal with X : ev b s (Match ?a ?x), Y : ev (NTimes _ _ _ _) ?a (Match s' ?y) |- _ => rename X into H1; rename Y into H2; rename a into s1; rename x into e1; rename y into e2 end.
      pose proof (ev_moved _ _ _ _ _ H1) as Hm1. pose proof (ev_moved _ _ _ _ _ H2) as Hm2. cbn in Hm1, Hm2.
      rewrite (read_two _ _ _ Hm1 Hm2), app_length. cbn [Nat.mul].
      pose proof (IH mn mx (i + 1)%N ltac:(lia) Hc s1 (within_moved _ _ Hs Hm1) Hb ltac:(cbn in HjW; lia) _ _ H2) as K.
      apply few_two; auto. { apply Hb; assumption. } intros _. destruct K as (A1 & A2). split; intros Hx; [specialize (A1 Hx)|specialize (A2 Hx)]; nia.
Qed.

Definition good (p : primary) : Prop := tidy (NPrim p) -> primary_weight p <= W -> bodies_few (NPrim p) -> forall s, within s -> gives E F (primary_weight p) (NPrim p) s.
Lemma good_factor : forall n p, good p -> tidy (NFactor (Factor n p)) -> factor_weight (Factor n p) <= W -> bodies_few (NFactor (Factor n p)) ->
  forall s, within s -> gives E F (factor_weight (Factor n p)) (NFactor (Factor n p)) s.
Proof.
  intros n p Hp Ht Hw Hb s Hs. assert (Ht' : tidy (NPrim p)) by (inversion Ht; assumption). unfold factor_weight in *. cbn [f_rep f_prim] in *.
  assert (Hp' : forall s, within s -> gives E F (primary_weight p) (NPrim p) s).
  { apply Hp; [exact Ht'|nia|]. intros r s0 Hr. apply Hb. constructor. exact Hr. }
  intros s' e H. inversion H; subst.
  - change (N.to_nat 1) with 1. cbn [Nat.max Nat.mul]. rewrite Nat.add_0_r. apply Hp'; assumption.
  - apply (few_more _ _ (N.to_nat n * primary_weight p)); [|nia].
    refine (times_counted (NPrim p) I Ht' _ (N.to_nat n) n n 0%N _ (or_introl eq_refl) s Hs Hp' _ _ _ _); [cbn; nia|lia|cbn; nia|assumption].
Qed.
Lemma good_term : forall t, P_term good t -> tidy (NTerm t) -> term_weight t <= W -> bodies_few (NTerm t) -> forall s, within s -> gives E F (term_weight t) (NTerm t) s.
Proof.
  intros [[n p] x] (Hp & _) Ht Hw Hb s Hs. cbn in Hp. unfold term_weight in *. cbn [t_factor] in *.
  assert (K : gives E F (factor_weight (Factor n p)) (NFactor (Factor n p)) s).
  { apply good_factor; auto; [inversion Ht; assumption|]. intros r s0 Hr. apply Hb. constructor. exact Hr. }
  intros s' e H. inversion H; subst; apply K; assumption.
Qed.
Lemma good_seq : forall ts, Forall (P_term good) ts -> tidy (NSeq ts) -> sequence_weight ts <= W -> bodies_few (NSeq ts) -> forall s, within s -> gives E F (sequence_weight ts) (NSeq ts) s.
Proof.
  intros ts HF. induction HF as [|t ts Ht HF IH]; intros Htd Hw Hb s Hs s' e H.
  - inversion H; subst. unfold read. rewrite Nat.sub_diag. split; intros; cbn; lia.
  - inversion Htd; subst. cbn [sequence_weight] in *.
    assert (Ht' : gives E F (term_weight t) (NTerm t) s).
    { apply good_term; auto; [lia|]. intros r s0 Hr. apply Hb. apply st_seq. exact Hr. }
    inversion H; subst.
    + apply (few_more _ _ (term_weight t)); [|lia]. destruct (bare_shape t d) as (l & ->); [assumption|]. apply Ht'. apply ev_term_plain, ev_factor_one, ev_grouped. assumption.
    + match goal with X : before _ ?o = Match _ _ |- _ => destruct o as [s2 e2|? ? ?|?]; try discriminate X; cbn in X; injection X as <- <- end.
      match goal with X : ev (NTerm t) s (Match ?a ?x) |- _ => rename X into K1; rename a into s1; rename x into e1 end.
      match goal with X : ev (NSeq ts) s1 _ |- _ => rename X into K2 end.
      pose proof (ev_moved _ _ _ _ _ K1) as Hm1. pose proof (ev_moved _ _ _ _ _ K2) as Hm2. cbn in Hm1, Hm2.
      rewrite (read_two _ _ _ Hm1 Hm2), app_length. apply few_two; auto.
      * intros E0. pose proof (read_none _ _ Hm1 E0) as ->. apply IH; auto; [lia|]. intros r s0 Hr. apply Hb. apply st_after; [assumption| |exact Hr]. exact (ev_rests _ _ _ _ _ K1 eq_refl).
      * intros Hc. apply (Hbelow (NSeq ts) s1); auto; [exact I|cbn; lia|]. pose proof (read_less _ _ Hc). unfold within in Hs. lia.
Qed.
Lemma alts_one : forall ds s s' e, ev (NAlts ds) s (Match s' e) -> exists d, In d ds /\ ev (NSeq d) s (Match s' e).
Proof.
  induction ds as [|d ds IH]; intros s s' e H; inversion H; subst; [exists d; split; [left; reflexivity|assumption]|].
  destruct (IH _ _ _ ltac:(eassumption)) as (d' & Hin & Hd). exists d'. split; [right; exact Hin|exact Hd].
Qed.
Lemma defs_one : forall ds s s' e, ev (NDefs ds) s (Match s' e) -> exists d, In d ds /\ ev (NSeq d) s (Match s' e).
Proof.
  intros ds s s' e H. inversion H; subst; [exists ts; split; [left; reflexivity|assumption]|]. apply alts_one. assumption.
Qed.
Lemma in_weight : forall d ds, In d ds -> sequence_weight d <= defs_weight ds.
Proof. intros d ds. induction ds as [|d' ds IH]; [intros []|]. intros [->|H]; cbn; [lia|]. specialize (IH H). lia. Qed.
Lemma good_defs : forall d, Forall (Forall (P_term good)) d -> tidy (NDefs d) -> defs_weight d <= W -> bodies_few (NDefs d) -> forall s, within s -> gives E F (defs_weight d) (NDefs d) s.
Proof.
  intros d HF Ht Hw Hb s Hs s' e H. destruct (defs_one _ _ _ _ H) as (ts & Hin & Hts). pose proof (in_weight _ _ Hin).
  apply (few_more _ _ (sequence_weight ts)); [|assumption]. rewrite Forall_forall in HF. inversion Ht as [| | | | | | | | | | | |ds Htd| | |]; subst. rewrite Forall_forall in Htd.
  apply (good_seq ts (HF ts Hin)); [apply Htd; exact Hin|lia| |exact Hs|exact Hts]. intros r s0 Hr. apply Hb. eapply st_defs; eauto.
Qed.
Lemma good_prim : forall p, good p.
Proof.
  induction p as [l d IH|l d IH|l d IH|l id|l w|l c|l] using primary_nested; intros Ht Hw Hb s Hs s' e H.
  - change (primary_weight (POptional l d)) with (defs_weight d) in *. inversion Ht; subst.
    assert (Hd : forall s, within s -> gives E F (defs_weight d) (NDefs d) s).
    { apply good_defs; auto. intros r s0 Hr. apply Hb. constructor. exact Hr. }
    assert (K : gives E F (1 * weight (NDefs d)) (NTimes 0 1 0 (NDefs d)) s).
    { refine (times_counted (NDefs d) I _ _ 1 0%N 1%N 0%N eq_refl (or_intror _) s Hs Hd _); [assumption|exact Hw|assumption|cbn; lia]. }
    inversion H; subst. cbn [weight Nat.mul] in K. rewrite Nat.add_0_r in K. apply K; assumption.
  - change (primary_weight (PRepeated l d)) with (defs_weight d) in *. inversion Ht; subst.
    assert (Hd : forall s, within s -> gives E F (defs_weight d) (NDefs d) s).
    { apply good_defs; auto. intros r s0 Hr. apply Hb. constructor. exact Hr. }
    inversion H; subst. match goal with X : ev (NTimes _ _ _ _) s _ |- _ => refine (proj1 (times_free _ _ (NDefs d) _ _ _ X eq_refl I _ _ Hw Hs Hd)); assumption end.
  - change (primary_weight (PGrouped l d)) with (defs_weight d) in *. inversion Ht; subst.
    assert (Hd : forall s, within s -> gives E F (defs_weight d) (NDefs d) s).
    { apply good_defs; auto. intros r s0 Hr. apply Hb. constructor. exact Hr. }
    inversion H; subst. apply Hd; assumption.
  - inversion H; subst. match goal with X : ev (NRef _ _) _ _ |- _ => inversion X; subst end.
    match goal with X : ev (NDefs (r_defs ?r)) s (Match s' ?x) |- _ => assert (A : yields E F r s) by (apply (Hb r s); [constructor; assumption|exact Hs]); destruct (A s' x X) as (A1 & A2) end.
    cbn [length app]. rewrite app_length. cbn [length primary_weight]. split; intros Hc; [specialize (A1 Hc)|specialize (A2 Hc)]; lia.
  - inversion H; subst. cbn [length primary_weight]. split; intros Hc; nia.
  - inversion H; subst; [|exfalso; eapply Hfwd; eassumption|exfalso; eapply Hfwd; eassumption].
    match goal with X : scanned _ _ _ (SMatch _ _) |- _ => pose proof (Hfr _ _ _ _ _ X) end. cbn [primary_weight]. split; intros Hc; nia.
  - inversion H; subst. cbn. split; intros Hc; nia.
Qed.
Lemma all_good : forall n, plain n -> tidy n -> weight n <= W -> bodies_few n -> forall s, within s -> gives E F (weight n) n s.
Proof.
  intros n Hp Ht Hw Hb s Hs.
  assert (Ht0 : forall t, P_term good t) by (intros t; split; [apply good_prim|]; unfold P_exc; destruct (t_exc t); [apply good_prim|exact I]).
  destruct n as [d|d|ts|t|[n p]|p| | |]; try contradiction; cbn [weight] in *.
  - apply good_defs; auto. rewrite Forall_forall. intros ts _. rewrite Forall_forall. auto.
  - apply good_seq; auto. rewrite Forall_forall. auto.
  - apply good_term; auto.
  - apply good_factor; auto. apply good_prim.
  - apply good_prim; auto.
Qed.
End Level.
Hypothesis Hleft : forall r, In r rules -> ~ left_recursive rules cfg r.
Hypothesis HW : W = syntax_weight rules.
Hypothesis HBd : B = at_rest rules M.
Hypothesis HLd : L = on_the_way rules M.
Lemma rule_weight : forall r, In r rules -> defs_weight (r_defs r) <= W.
Proof.
  rewrite HW. intros r. generalize rules. induction rules0 as [|r' rs IH]; [intros []|]. intros [->|H]; cbn; [lia|]. specialize (IH H). lia.
Qed.
Lemma rule_tidy : forall r, In r rules -> tidy (NDefs (r_defs r)).
Proof. rewrite Forall_forall in Htidy. exact Htidy. Qed.
Lemma body_few : forall k, (forall n s, plain n -> tidy n -> weight n <= W -> length (p_rest s) < k -> gives B L (weight n) n s) ->
  forall d r s, d <= S (length rules) -> chain rule (tries rules cfg) d r -> In r rules -> length (p_rest s) <= k -> yields (idle W M d) (d * (W * B + 2)) r s.
Proof.
  intros k Hbelow. induction d as [|d IH]; intros r s Hd Hch Hin Hs; [contradiction|].
  assert (HEB : idle W M d <= B) by (rewrite HBd; unfold at_rest; rewrite <- HW; apply idle_up; lia).
  assert (HFL : d * (W * B + 2) <= L) by (rewrite HLd; unfold on_the_way; rewrite <- HW, <- HBd; nia).
  assert (HE : 1 + M <= idle W M d) by (apply (idle_up W M 0 d); lia).
  pose proof (rule_weight r Hin) as Hw.
  assert (K : gives (idle W M d) (d * (W * B + 2)) (defs_weight (r_defs r)) (NDefs (r_defs r)) s).
  { apply (all_good k (idle W M d) (d * (W * B + 2)) HE HEB HFL Hbelow (NDefs (r_defs r)) I (rule_tidy r Hin) Hw); [|exact Hs].
    intros r' s' Hr' Hs'. apply IH; [lia|apply Hch; split; assumption|eapply starts_in; exact Hr'|exact Hs']. }
  intros s' e H. destruct (K s' e H) as (K1 & K2). cbn [idle Nat.mul]. split; intros Hc; [specialize (K1 Hc)|specialize (K2 Hc)]; nia.
Qed.
Lemma nodes_few : forall k n s, plain n -> tidy n -> weight n <= W -> length (p_rest s) < k -> gives B L (weight n) n s.
Proof.
  induction k as [|k IH]; intros n s Hp Ht Hw Hs; [lia|].
  apply (all_good k B L HB (le_n B) (le_n L) IH n Hp Ht Hw); [|unfold within; lia].
  intros r s' Hr Hs'. pose proof (body_few k IH (S (length rules)) r s' (le_n _) (tries_chain rules cfg Hleft r) (starts_in _ _ _ _ Hr) Hs') as K.
  replace (idle W M (S (length rules))) with B in K by (rewrite HBd, HW; reflexivity).
  replace (S (length rules) * (W * B + 2)) with L in K by (rewrite HLd; unfold on_the_way; rewrite <- HW, <- HBd; reflexivity). exact K.
Qed.
Lemma rule_few : forall r s s' e, In r rules -> ev (NDefs (r_defs r)) s (Match s' e) -> 2 + length e <= event_bound rules M (length (p_rest s)).
Proof.
  intros r s s' e Hin H.
  pose proof (body_few (length (p_rest s)) (nodes_few (length (p_rest s))) (S (length rules)) r s (le_n _) (tries_chain rules cfg Hleft r) Hin (le_n _) s' e H) as (K1 & K2).
  replace (idle W M (S (length rules))) with B in K1 by (rewrite HBd, HW; reflexivity).
  replace (S (length rules) * (W * B + 2)) with L in K2 by (rewrite HLd; unfold on_the_way; rewrite <- HW, <- HBd; reflexivity).
  unfold event_bound. rewrite <- HW, <- HBd, <- HLd. fold Q. pose proof (ev_moved _ _ _ _ _ H) as Hm. cbn in Hm. apply moved_len in Hm.
  assert (Hr : read s s' <= length (p_rest s)) by (unfold read; lia).
  destruct (Nat.eq_dec (read s s') 0) as [E0|E0]; [specialize (K1 E0); lia|]. specialize (K2 ltac:(lia)). nia.
Qed.
End Count.
