(** A computation that tells whether a set of rules is left-recursive (SpecTotal.v).

    Nothing here is taken from the code: it turns the condition of C37 into one that can be
    checked. *)
From Coq Require Import String List NArith Arith Bool Lia Relations.
From Verif Require Import Base Ident Ast Graph SpecText SpecSyntax TextFacts SyntaxFacts SpecParse SpecTotal ParseFacts EvFacts.
Import ListNotations.
Open Scope nat_scope.

(** ** Growing a set until it grows no more *)
Section Grow.
Variable A : Type.
Variable all : list A.
Variable F : list A -> A -> bool.
Fixpoint grow (n : nat) : list A :=
  match n with O => [] | S n => filter (F (grow n)) all end.
Definition grown : list A := grow (length all).
Hypothesis mono : forall K K' x, incl K K' -> F K x = true -> F K' x = true.
Lemma grow_up : forall n, incl (grow n) (grow (S n)).
Proof.
  induction n as [|n IH]; [intros x []|]. intros x Hx. cbn [grow] in Hx. apply filter_In in Hx as (Hx & E). cbn [grow]. apply filter_In. split; [exact Hx|]. eapply mono; [exact IH|exact E].
Qed.
Lemma filter_less : forall (p q : A -> bool) l, (forall x, In x l -> p x = true -> q x = true) ->
  length (filter p l) <= length (filter q l) /\ (length (filter p l) = length (filter q l) -> filter p l = filter q l).
Proof.
  intros p q l. induction l as [|x l IH]; intros H; [split; auto|]. destruct IH as (I1 & I2); [intros y Hy; apply H; right; exact Hy|].
  cbn [filter]. destruct (p x) eqn:Ep.
  - rewrite (H x (or_introl eq_refl) Ep). cbn [length]. split; [lia|]. intros E. f_equal. apply I2. lia.
  - destruct (q x); cbn [length]; (split; [lia|]); intros E; [exfalso; lia|exact (I2 E)].
Qed.
Lemma grow_still : forall n, grow (S n) = grow n -> forall k, grow (n + k) = grow n.
Proof.
  intros n E k. induction k as [|k IH]; [rewrite Nat.add_0_r; reflexivity|]. rewrite Nat.add_succ_r. cbn [grow] in *. rewrite IH. exact E.
Qed.
Lemma grow_full : forall n, (exists k, k <= n /\ grow (S k) = grow k) \/ n < length (grow (S n)).
Proof.
  induction n as [|n IH].
  - destruct (grow 1) as [|x l] eqn:E; [left; exists 0; split; [lia|exact E]|right; cbn; lia].
  - destruct IH as [(k & Hk & E)|IH]; [left; exists k; split; [lia|exact E]|].
    destruct (filter_less (F (grow n)) (F (grow (S n))) all) as (L1 & L2).
    { intros x _ Hx. eapply mono; [apply grow_up|exact Hx]. }
    change (filter (F (grow n)) all) with (grow (S n)) in L1, L2. change (filter (F (grow (S n))) all) with (grow (S (S n))) in L1, L2.
    destruct (Nat.eq_dec (length (grow (S n))) (length (grow (S (S n))))) as [E|E]; [left; exists (S n); split; [lia|symmetry; exact (L2 E)]|right; lia].
Qed.
Lemma filter_short : forall (p : A -> bool) l, length (filter p l) <= length l.
Proof. intros p l. induction l as [|x l IH]; [apply le_n|]. cbn [filter]. destruct (p x); cbn [length]; lia. Qed.
Lemma grown_closed : forall x, In x all -> F grown x = true -> In x grown.
Proof.
  assert (E : grow (S (length all)) = grow (length all)).
  { destruct (grow_full (length all)) as [(k & Hk & E)|H].
    - replace (length all) with (k + (length all - k)) by lia. rewrite <- Nat.add_succ_r. rewrite !(grow_still k E). reflexivity.
    - exfalso. cbn [grow] in H. pose proof (filter_short (F (grow (length all))) all). lia. }
  intros x Hx HF. unfold grown in *. rewrite <- E. cbn [grow]. apply filter_In. auto.
Qed.
Lemma grown_least : forall P : A -> Prop, (forall K x, (forall y, In y K -> In y all /\ P y) -> In x all -> F K x = true -> P x) -> forall x, In x grown -> In x all /\ P x.
Proof.
  intros P H. unfold grown. generalize (length all) as n. induction n as [|n IH]; intros x Hx; [destruct Hx|]. cbn [grow] in Hx. apply filter_In in Hx as (Hx & E).
  split; [exact Hx|]. eapply H; eauto.
Qed.
End Grow.

(** ** The check *)
Section Check.
(** What is known about the scanner of a special sequence: whether it can match without
    reading anything, and where it can forward to. *)
Variable scans : location -> str -> bool * list str.
Variable rules : list rule.

Definition called (id : str) (r : rule) : bool := str_eqb (keyed id) (keyed (r_id r)).
Definition is_bare (t : term) : bool := match bare_group t with Some _ => true | None => false end.
(** [known]: rules that can match without reading anything. *)
Fixpoint skips_p (known : list rule) (p : primary) : bool :=
  let skips_t (t : term_ primary) := N.eqb (f_rep (t_factor t)) 0 || skips_p known (f_prim (t_factor t)) in
  let skips_s := fix skips_s (ts : list (term_ primary)) : bool :=
    match ts with [] => true | t :: r => skips_t t && (is_bare t || skips_s r) end in
  match p with
  | PTerminal _ w => match w with [] => true | _ => false end
  | PEmpty _ | POptional _ _ | PRepeated _ _ => true
  | PSpecial l c => fst (scans l c) || match snd (scans l c) with [] => false | _ => true end
  | PMeta _ id => existsb (called id) known
  | PGrouped _ d => existsb skips_s d
  end.
Definition skips_t (known : list rule) (t : term) : bool := N.eqb (f_rep (t_factor t)) 0 || skips_p known (f_prim (t_factor t)).
Definition skips_s (known : list rule) : list term -> bool := fix skips_s (ts : list term) : bool :=
  match ts with [] => true | t :: r => skips_t known t && (is_bare t || skips_s r) end.
Definition skips_d (known : list rule) (d : definition_list) : bool := existsb (skips_s known) d.
Definition skipping : list rule := grown rule rules (fun known r => skips_d known (r_defs r)).

(** The rule [r] can be tried before anything is read. *)
Definition forwards (id : str) (r : rule) : bool :=
  called id r || existsb (fun r0 => str_eqb (keyed id) (keyed (36%N :: r_id r0)) && called (r_id r0) r) rules.
Fixpoint starts_p (r : rule) (p : primary) : bool :=
  let starts_t (t : term_ primary) := starts_p r (f_prim (t_factor t)) || match t_exc t with Some e => starts_p r (f_prim e) | None => false end in
  let starts_s := fix starts_s (ts : list (term_ primary)) : bool :=
    match ts with [] => false | t :: rest => starts_t t || (negb (is_bare t) && skips_t skipping t && starts_s rest) end in
  match p with
  | PTerminal _ _ | PEmpty _ => false
  | PSpecial l c => existsb (fun id => forwards id r) (snd (scans l c))
  | PMeta _ id => called id r
  | POptional _ d | PRepeated _ d | PGrouped _ d => existsb starts_s d
  end.
Definition starts_t (r : rule) (t : term) : bool := starts_p r (f_prim (t_factor t)) || match t_exc t with Some e => starts_p r (f_prim e) | None => false end.
Definition starts_s (r : rule) : list term -> bool := fix starts_s (ts : list term) : bool :=
  match ts with [] => false | t :: rest => starts_t r t || (negb (is_bare t) && skips_t skipping t && starts_s rest) end.
Definition starts_d (r : rule) (d : definition_list) : bool := existsb (starts_s r) d.

(** The rules that are tried at the place where [r] began. *)
Definition tried_by (r : rule) : list rule :=
  grown rule rules (fun known x => starts_d x (r_defs r) || existsb (fun y => starts_d x (r_defs y)) known).
Definition left_rule (r : rule) : bool := existsb (called (r_id r)) (tried_by r).
Definition left_rules : bool := existsb left_rule rules.

(** ** What it computes *)
Variable cfg : config.
Hypothesis Hskip : forall l c, fst (scans l c) = true <-> exists s e, scanned (cfg l c) l s (SMatch s e).
Hypothesis Hfwd : forall l c id, In id (snd (scans l c)) <-> exists s s', scanned (cfg l c) l s (SForward id s').
Hypothesis Hone : no_repeat rules.
Notation skips := (skips rules cfg).
Notation starts := (starts rules cfg).
Notation tries := (tries rules cfg).

Lemma called_names : forall id r, In r rules -> (called id r = true <-> names rules id r).
Proof.
  intros id r Hr. unfold called, names. rewrite str_eqb_eq, same_name_keyed. tauto.
Qed.
Lemma called_self : forall r, called (r_id r) r = true.
Proof. intros r. unfold called. apply str_eqb_eq. reflexivity. Qed.
Lemma called_same : forall r x, In r rules -> In x rules -> called (r_id r) x = true -> x = r.
Proof.
  intros r x Hr Hx H. apply (names_unique rules (r_id r)); [exact Hone|apply called_names; assumption|apply called_names; [exact Hr|apply called_self]].
Qed.
Lemma is_bare_some : forall t d, bare_group t = Some d -> is_bare t = true /\ exists l, t = Term (Factor 1 (PGrouped l d)) None.
Proof.
  intros t d H. unfold is_bare. rewrite H. split; [reflexivity|]. destruct t as [[n p] e]. destruct p; try discriminate. destruct e; try discriminate. cbn in H. destruct (N.eqb_spec n 1); [|discriminate]. subst. injection H as ->. eauto.
Qed.

Definition skips_n (known : list rule) (n : node) : bool :=
  match n with
  | NPrim p => skips_p known p | NFactor f => N.eqb (f_rep f) 0 || skips_p known (f_prim f) | NTerm t => skips_t known t
  | NSeq ts => skips_s known ts | NDefs d => skips_d known d | _ => false
  end.
Lemma skips_sound_p : forall known, (forall r, In r known -> In r rules /\ skips (NDefs (r_defs r))) ->
  forall p, skips_p known p = true -> skips (NPrim p).
Proof.
  intros known Hk. fix IH 1. intros p H. destruct p as [l d|l d|l d|l id|l w|l c|l].
  - apply sk_optional.
  - apply sk_repeated.
  - cbn in H. apply sk_group. induction d as [|ts d IHd]; [discriminate|]. cbn in H. apply orb_prop in H as [H|H].
    + clear IHd. assert (K : skips (NSeq ts)).
      { induction ts as [|[[n q] e] ts IHts]; [apply sk_nil|]. cbn [t_factor f_rep f_prim] in H. apply andb_prop in H as (H1 & H2).
        assert (T : skips (NFactor (Factor n q))).
        { apply orb_prop in H1 as [H1|H1]; [apply N.eqb_eq in H1; subst; apply sk_none|apply sk_factor; exact (IH q H1)]. }
        destruct (bare_group (Term (Factor n q) e)) as [d'|] eqn:Eb.
        - eapply sk_seq_group; [exact Eb|]. destruct (is_bare_some _ _ Eb) as (_ & l' & E'). injection E' as -> -> ->.
          cbn [N.eqb] in H1. change (skips_p known (PGrouped l' d') = true) in H1. inversion T; subst.
          match goal with X : skips (NPrim _) |- _ => inversion X; subst; assumption end.
        - unfold is_bare in H2. rewrite Eb in H2. apply sk_seq; [apply sk_term; exact T|exact (IHts H2)]. }
      eapply sk_defs; [left; reflexivity|exact K].
    + specialize (IHd H). inversion IHd; subst. eapply sk_defs; [right; eassumption|assumption].
  - cbn in H. apply existsb_exists in H as (r & Hr & E). destruct (Hk r Hr) as (Hin & Hs). eapply sk_meta; [|exact Hs]. apply called_names; assumption.
  - cbn in H. destruct w; [apply sk_terminal|discriminate].
  - cbn in H. apply orb_prop in H as [H|H].
    + apply Hskip in H as (s & e & H). eapply sk_special; exact H.
    + destruct (snd (scans l c)) as [|id ids] eqn:E; [discriminate|]. assert (K : In id (snd (scans l c))) by (rewrite E; left; reflexivity).
      apply Hfwd in K as (s & s' & K). eapply sk_forward; exact K.
  - apply sk_empty.
Qed.
Lemma skips_sound_d : forall known, (forall r, In r known -> In r rules /\ skips (NDefs (r_defs r))) ->
  forall d, skips_d known d = true -> skips (NDefs d).
Proof. intros known Hk d H. pose proof (skips_sound_p known Hk (PGrouped (loc_new []) d) H) as K. inversion K; subst. assumption. Qed.
Lemma skipping_sound : forall r, In r skipping -> In r rules /\ skips (NDefs (r_defs r)).
Proof. apply (grown_least rule rules _ (fun r => skips (NDefs (r_defs r)))). intros K x HK Hx E. exact (skips_sound_d K HK _ E). Qed.

Lemma existsb_incl : forall (f : rule -> bool) K K', incl K K' -> existsb f K = true -> existsb f K' = true.
Proof. intros f K K' Hi H. apply existsb_exists in H as (x & Hx & E). apply existsb_exists. exists x. auto. Qed.
Lemma skips_mono_p : forall K K', incl K K' -> forall p, skips_p K p = true -> skips_p K' p = true.
Proof.
  intros K K' Hi. fix IH 1. intros p H. destruct p as [l d|l d|l d|l id|l w|l c|l]; try exact H.
  - cbn in H |- *. induction d as [|ts d IHd]; [discriminate|]. cbn in H |- *. apply orb_prop in H as [H|H]; [|rewrite (IHd H); apply orb_true_r].
    apply orb_true_iff. left. clear IHd. induction ts as [|[[n q] e] ts IHts]; [reflexivity|]. cbn [t_factor f_rep f_prim] in H |- *. apply andb_prop in H as (H1 & H2). apply andb_true_iff. split.
    + apply orb_prop in H1 as [H1|H1]; [rewrite H1; reflexivity|rewrite (IH q H1); apply orb_true_r].
    + apply orb_prop in H2 as [H2|H2]; [rewrite H2; reflexivity|rewrite (IHts H2); apply orb_true_r].
  - cbn in H |- *. eapply existsb_incl; [exact Hi|exact H].
Qed.
Lemma skips_mono : forall K K' x, incl K K' -> skips_d K (r_defs x) = true -> skips_d K' (r_defs x) = true.
Proof. intros K K' x Hi H. exact (skips_mono_p K K' Hi (PGrouped (loc_new []) (r_defs x)) H). Qed.
Lemma skips_complete : forall n, skips n -> skips_n skipping n = true.
Proof.
  intros n H. induction H; cbn [skips_n] in *; try reflexivity.
  - cbn. apply orb_true_iff. left. apply Hskip. eauto.
  - cbn. apply orb_true_iff. right. assert (K : In id (snd (scans l c))) by (apply Hfwd; eauto). destruct (snd (scans l c)); [destruct K|reflexivity].
  - cbn. apply existsb_exists. exists r. split; [|apply called_names; [exact (proj1 H)|exact H]]. apply grown_closed; [exact skips_mono|exact (proj1 H)|exact IHskips].
  - exact IHskips.
  - cbn [f_rep f_prim]. rewrite IHskips. apply orb_true_r.
  - exact IHskips.
  - destruct (is_bare_some _ _ H) as (E & l & ->). cbn [skips_s]. rewrite E. cbn [orb]. rewrite andb_true_r. exact IHskips.
  - cbn [skips_s]. rewrite IHskips1, IHskips2. apply andb_true_iff. split; [reflexivity|apply orb_true_r].
  - unfold skips_d. apply existsb_exists. eauto.
Qed.
Lemma skips_t_exact : forall t, skips_t skipping t = true <-> skips (NTerm t).
Proof.
  intros t. split; [|exact (skips_complete (NTerm t))]. intros H. destruct t as [[n p] e]. apply sk_term. unfold skips_t in H. cbn in H.
  apply orb_prop in H as [H|H]; [apply N.eqb_eq in H; subst; apply sk_none|]. apply sk_factor. eapply skips_sound_p; [exact skipping_sound|exact H].
Qed.

Definition starts_n (r : rule) (n : node) : bool :=
  match n with
  | NPrim p => starts_p r p | NFactor f => starts_p r (f_prim f) | NTerm t => starts_t r t
  | NSeq ts => starts_s r ts | NDefs d => starts_d r d | _ => false
  end.
Lemma dollar_keyed : forall id r, dollar id r <-> str_eqb (keyed id) (keyed (36%N :: r_id r)) = true.
Proof. intros id r. unfold dollar. rewrite str_eqb_eq. apply same_name_keyed. Qed.
Lemma starts_sound_p : forall r, In r rules -> forall p, starts_p r p = true -> starts (NPrim p) r.
Proof.
  intros r Hr. fix IH 1. intros p.
  assert (D : forall d, (forall ts t, In ts d -> In t ts -> (starts_p r (f_prim (t_factor t)) = true -> starts (NPrim (f_prim (t_factor t))) r) /\
    (forall e, t_exc t = Some e -> starts_p r (f_prim e) = true -> starts (NPrim (f_prim e)) r)) -> starts_d r d = true -> starts (NDefs d) r).
  { intros d Hd H. unfold starts_d in H. apply existsb_exists in H as (ts & Hin & H). eapply st_defs; [exact Hin|]. specialize (Hd ts). specialize (fun t => Hd t Hin). clear Hin.
    induction ts as [|t ts IHts]; [discriminate|]. cbn [starts_s] in H. apply orb_prop in H as [H|H].
    - apply st_seq. destruct (Hd t (or_introl eq_refl)) as (H1 & H2). destruct t as [[n q] e]. unfold starts_t in H. cbn [t_factor t_exc f_prim] in *. apply orb_prop in H as [H|H].
      + apply st_term, st_factor, H1, H.
      + destruct e as [[k q2]|]; [|discriminate]. apply st_except, st_factor. exact (H2 _ eq_refl H).
    - apply andb_prop in H as (H & H3). apply andb_prop in H as (H1 & H2). apply st_after; [|apply skips_t_exact; exact H2|apply IHts; [intros t' Ht'; apply Hd; right; exact Ht'|exact H3]].
      unfold is_bare in H1. destruct (bare_group t); [discriminate|reflexivity]. }
  assert (Q : forall d, (forall q, starts_p r q = true -> starts (NPrim q) r) -> starts_d r d = true -> starts (NDefs d) r).
  { intros d HI. apply D. intros ts t _ _. split; [apply HI|intros e _; apply HI]. }
  intros H. destruct p as [l d|l d|l d|l id|l w|l c|l]; try discriminate H.
  1-3: assert (E : starts (NDefs d) r); [|constructor; exact E]; apply D; [|exact H]; clear H D Q.
  1-3: induction d as [|ts d IHd]; [intros ts t []|]; intros ts' t [<-|Hin] Ht; [|exact (IHd ts' t Hin Ht)]; clear IHd.
  1-3: induction ts as [|[[n q] e] ts IHts]; [destruct Ht|]; destruct Ht as [<-|Ht]; [|exact (IHts Ht)]; split; [exact (IH q)|].
  1-3: intros e' E'; destruct e as [[k q2]|]; [|discriminate E']; injection E' as <-; exact (IH q2).
  - apply st_meta. apply called_names; [exact Hr|exact H].
  - cbn in H. apply existsb_exists in H as (id & Hid & H). apply Hfwd in Hid as (s & s' & Hs). unfold forwards in H. apply orb_prop in H as [H|H].
    + eapply st_forward; [exact Hs|]. apply called_names; assumption.
    + apply existsb_exists in H as (r0 & Hr0 & H). apply andb_prop in H as (H1 & H2). eapply st_dollar; [exact Hs|exact Hr0|apply dollar_keyed; exact H1|]. apply called_names; assumption.
Qed.
Lemma starts_in : forall n r, starts n r -> In r rules.
Proof. intros n r H. induction H; try assumption; match goal with X : names _ _ r |- _ => exact (proj1 X) end. Qed.
Lemma starts_complete : forall n r, starts n r -> starts_n r n = true.
Proof.
  intros n r H. induction H; cbn [starts_n] in *.
  - cbn. apply called_names; [exact (proj1 H)|exact H].
  - cbn. apply existsb_exists. exists id. split; [apply Hfwd; eauto|]. unfold forwards. apply orb_true_iff. left. apply called_names; [exact (proj1 H0)|exact H0].
  - cbn. apply existsb_exists. exists id. split; [apply Hfwd; eauto|]. unfold forwards. apply orb_true_iff. right. apply existsb_exists. exists r0. split; [exact H0|].
    apply andb_true_iff. split; [apply dollar_keyed; exact H1|]. apply called_names; [exact (proj1 H2)|exact H2].
  - exact IHstarts.
  - exact IHstarts.
  - exact IHstarts.
  - exact IHstarts.
  - unfold starts_t. cbn. rewrite IHstarts. reflexivity.
  - unfold starts_t. cbn. rewrite IHstarts. apply orb_true_r.
  - cbn [starts_s]. rewrite IHstarts. reflexivity.
  - cbn [starts_s]. unfold is_bare. rewrite H, (proj2 (skips_t_exact t) H0), IHstarts. apply orb_true_r.
  - unfold starts_d. apply existsb_exists. eauto.
Qed.
Lemma starts_exact : forall d r, In r rules -> (starts_d r d = true <-> starts (NDefs d) r).
Proof.
  intros d r Hr. split; [|exact (starts_complete (NDefs d) r)]. intros H. pose proof (starts_sound_p r Hr (PGrouped (loc_new []) d) H) as K. inversion K; subst. assumption.
Qed.

Lemma tried_exact : forall r x, In r rules -> (In x (tried_by r) <-> clos_trans rule tries r x).
Proof.
  intros r x Hr. split.
  - intros H. refine (proj2 (grown_least rule rules _ (fun x => clos_trans rule tries r x) _ x H)). intros K y HK Hy E. apply orb_prop in E as [E|E].
    + apply t_step. split; [exact Hr|]. apply starts_exact; assumption.
    + apply existsb_exists in E as (z & Hz & E). destruct (HK z Hz) as (Hz' & Hc). eapply t_trans; [exact Hc|]. apply t_step. split; [exact Hz'|]. apply starts_exact; assumption.
  - assert (M : forall K K' y, incl K K' -> starts_d y (r_defs r) || existsb (fun z => starts_d y (r_defs z)) K = true -> starts_d y (r_defs r) || existsb (fun z => starts_d y (r_defs z)) K' = true).
    { intros K K' y Hi H. apply orb_prop in H as [H|H]; [rewrite H; reflexivity|]. apply orb_true_iff. right. eapply existsb_incl; [exact Hi|exact H]. }
    intros H. apply clos_trans_tn1_iff in H. induction H as [y (_ & Hy)|y z (Hy & Hz) _ IH].
    + pose proof (starts_in _ _ Hy) as Hin. apply grown_closed; [exact M|exact Hin|]. apply orb_true_iff. left. apply starts_exact; assumption.
    + pose proof (starts_in _ _ Hz) as Hin. apply grown_closed; [exact M|exact Hin|]. apply orb_true_iff. right. apply existsb_exists. exists y. split; [exact IH|]. apply starts_exact; assumption.
Qed.
Lemma left_rule_exact : forall r, In r rules -> (left_rule r = true <-> left_recursive rules cfg r).
Proof.
  intros r Hr. unfold left_rule, left_recursive. rewrite <- (tried_exact r r Hr). split.
  - intros H. apply existsb_exists in H as (x & Hx & E). pose proof (proj1 (grown_least rule rules _ (fun _ => True) (fun _ _ _ _ _ => I) x Hx)) as Hin.
    rewrite (called_same r x Hr Hin E) in Hx. exact Hx.
  - intros H. apply existsb_exists. exists r. split; [exact H|apply called_self].
Qed.
Lemma left_rules_exact : left_rules = true <-> exists r, In r rules /\ left_recursive rules cfg r.
Proof.
  unfold left_rules. rewrite existsb_exists. split; intros (r & Hr & H); exists r; (split; [exact Hr|]); apply left_rule_exact; assumption.
Qed.
End Check.
