(** Without left recursion every rule has an outcome on every text. *)
From Coq Require Import String List NArith Arith Bool Lia Relations Wellfounded.
From Verif Require Import Base Ident Tokenizer Ast Lex Syntax Io Graph Machine SpecText SpecSyntax SpecIo TextFacts SyntaxFacts IoFacts SpecParse SpecMachine SpecTotal Pure PureFacts ParseFacts CodeFacts RunFacts EvFacts MachineFacts.
Import ListNotations.
Open Scope nat_scope.

(** ** Finitely many rules *)
Section Finite.
Variable A : Type.
Variable R : A -> A -> Prop.
Variable all : list A.
Hypothesis Hin : forall x y, R x y -> In x all /\ In y all.
Hypothesis Hirr : forall x, ~ clos_trans A R x x.
Lemma finite_acc : forall n x seen, length all < n + length seen -> NoDup seen -> incl seen all ->
  (forall y, In y seen -> clos_trans A R y x) -> Acc (fun y x => R x y) x.
Proof.
  induction n as [|n IH]; intros x seen Hn Hd Hi Hs.
  - pose proof (NoDup_incl_length Hd Hi). lia.
  - constructor. intros y Hy. destruct (Hin _ _ Hy) as (Hx & _).
    apply (IH y (x :: seen)).
    + cbn. lia.
    + constructor; [|exact Hd]. intros K. exact (Hirr x (Hs x K)).
    + intros z [<-|Hz]; [exact Hx|apply Hi; exact Hz].
    + intros z [<-|Hz]; [apply t_step; exact Hy|eapply t_trans; [apply Hs; exact Hz|apply t_step; exact Hy]].
Qed.
End Finite.

Section Total.
Variable rules : list rule.
Variable cfg : config.
Notation ev := (ev rules cfg).
Notation skips := (skips rules cfg).
Notation starts := (starts rules cfg).

(** ** Matching without moving *)
Fixpoint still (n : node) : Prop :=
  match n with
  | NTimes mn mx i b => (mx <= i)%N \/ (mn <= i)%N \/ still b
  | NRef l id => skips (NPrim (PMeta l id))
  | NAlts ds => skips (NDefs ds)
  | NFwd _ => True
  | _ => skips n
  end.
Definition rests (n : node) (s : pst) (o : outcome) : Prop :=
  match o with Match s' _ => s' = s -> still n | _ => True end.
Lemma moved_between : forall s s1, moved s s1 -> moved s1 s -> s1 = s.
Proof.
  intros s s1 (w & H) (w2 & H2). apply goes_push in H as (A & B). apply goes_push in H2 as (C & D).
  assert (L : length w = 0). { apply (f_equal (@length _)) in A. apply (f_equal (@length _)) in C. rewrite app_length in *. lia. }
  destruct w; [|discriminate]. destruct s, s1. cbn in *. subst. reflexivity.
Qed.
Lemma bare_shape : forall t d, bare_group t = Some d -> exists l, t = Term (Factor 1 (PGrouped l d)) None.
Proof.
  intros [[k p] ex] d H. cbn in H. destruct p; try discriminate. destruct ex; try discriminate. destruct (N.eqb_spec k 1); [|discriminate].
  injection H as ->. subst. eauto.
Qed.
Lemma ev_rests : forall n s o, ev n s o -> rests n s o.
Proof.
  intros n s o H. induction H; try exact I.
  - intros E. subst. destruct H as (H & _). cbn. assert (w = []) by (apply (f_equal (@length _)) in H; rewrite app_length in H; destruct w; [reflexivity|cbn in H; lia]).
    subst. apply sk_terminal.
  - intros E. apply sk_empty.
  - intros E. subst. cbn. eapply sk_special. exact H.
  - intros E. cbn. eapply sk_forward. exact H.
  - intros E. cbn. eapply sk_forward. exact H.
  - destruct o; try exact I. exact IHev.
  - intros E. subst. cbn. eapply sk_meta; [exact H|]. apply IHev. reflexivity.
  - destruct o; try exact I. intros E. apply sk_optional.
  - destruct o; try exact I. intros E. apply sk_repeated.
  - destruct o; try exact I. intros E. apply sk_group. apply IHev. exact E.
  - intros _. left. assumption.
  - intros _. right. left. assumption.
  - intros E. subst. cbn. right. right. apply IHev1. apply moved_between; [exact (ev_moved _ _ _ _ _ H1)|exact (ev_moved _ _ _ _ _ H2)].
  - destruct o; try exact I. intros E. apply sk_factor. apply IHev. exact E.
  - destruct o; try exact I. intros E. cbn. destruct (IHev E) as [K|[K|K]].
    + assert (n = 0%N) by lia. subst. apply sk_none.
    + assert (n = 0%N) by lia. subst. apply sk_none.
    + apply sk_factor. exact K.
  - destruct o; try exact I. intros E. apply sk_term. apply IHev. exact E.
  - intros E. apply sk_term. apply IHev1. exact E.
  - intros _. apply sk_nil.
  - destruct o; try exact I. intros E. eapply sk_seq_group; [exact H|]. apply IHev. exact E.
  - destruct o as [s2 e2| |]; try exact I. intros E. cbn in E. subst.
    assert (s' = s) by (apply moved_between; [exact (ev_moved _ _ _ _ _ H0)|exact (ev_moved _ _ _ _ _ H1)]). subst.
    apply sk_seq; [apply IHev1; reflexivity|apply IHev2; reflexivity].
  - destruct o; try exact I. intros E. eapply sk_defs; [left; reflexivity|]. apply IHev. exact E.
  - exact IHev.
  - intros E. eapply sk_defs; [left; reflexivity|]. apply IHev. exact E.
  - intros E. specialize (IHev2 E). cbn in *. inversion IHev2; subst. eapply sk_defs; [right; eassumption|assumption].
  - destruct o; try exact I. intros _. exact I.
  - destruct o; try exact I. intros _. exact I.
Qed.

(** ** Every node has an outcome *)
Definition ends (k : nat) (n : node) : Prop := forall s, length (p_rest s) <= k -> exists o, ev n s o.
Lemma moved_len : forall s s', moved s s' -> length (p_rest s') <= length (p_rest s).
Proof. intros s s' (w & H & _). rewrite H, app_length. lia. Qed.
Lemma moved_same : forall s s', moved s s' -> length (p_rest s) <= length (p_rest s') -> s' = s.
Proof.
  intros s s' (w & H) L. apply goes_push in H as (A & B). assert (w = []) by (apply (f_equal (@length _)) in A; rewrite app_length in A; destruct w; [reflexivity|cbn in A; lia]).
  subst. destruct s, s'. cbn in *. subst. reflexivity.
Qed.
Lemma times_no : forall mn mx i b s l s' e, ev (NTimes mn mx i b) s (No l s' e) -> e = [].
Proof. intros mn mx i b s l s' e H. inversion H; subst; reflexivity. Qed.
Lemma ends_times : forall k b, ends k b -> forall mn mx j i, (mx - i <= j)%N -> ends k (NTimes mn mx i b).
Proof.
  intros k b Hb mn mx j. induction j as [|j IH] using N.peano_ind; intros i Hj s Hs.
  - eexists. apply ev_times_end. lia.
  - destruct (N.lt_ge_cases i mx) as [Hi|Hi]; [|eexists; apply ev_times_end; exact Hi].
    destruct (Hb s Hs) as ([s1 e1|l s1 e1|h] & H1).
    + assert (Hm : length (p_rest s1) <= k) by (pose proof (moved_len _ _ (ev_moved _ _ _ _ _ H1)); lia).
      destruct (IH (i + 1)%N ltac:(lia) s1 Hm) as (o2 & H2).
      assert (K : (mx = max_count /\ p_at s1 = p_at s) \/ (mx = max_count -> p_at s1 <> p_at s)).
      { destruct (loc_eqb (p_at s1) (p_at s)) eqn:El; [apply loc_eqb_eq in El|].
        - destruct (N.eq_dec mx max_count); [left; auto|right; intros; contradiction].
        - right. intros _ E. rewrite E, loc_eqb_refl in El. discriminate. }
      destruct K as [(E1 & E2)|K]; [eexists; eapply ev_times_livelock; eauto|].
      destruct o2 as [s2 e2|l2 s2 e2|h].
      * eexists. eapply ev_times_more; eauto.
      * rewrite (times_no _ _ _ _ _ _ _ _ H2) in H2. eexists. eapply ev_times_no; eauto.
      * eexists. eapply ev_times_more_halt; eauto.
    + destruct (N.lt_ge_cases i mn); [eexists; eapply ev_times_short; eauto|eexists; eapply ev_times_stop; eauto].
    + eexists. eapply ev_times_halt; eauto.
Qed.
Lemma ends_alts : forall k ds, ds <> [] -> Forall (fun d => ends k (NSeq d)) ds -> ends k (NAlts ds).
Proof.
  intros k ds Hne HF. induction HF as [|d ds Hd HF IH]; [contradiction|]. intros s Hs.
  destruct (Hd s Hs) as ([s1 e1|l s1 e1|h] & H1).
  - eexists. apply ev_alts_first. exact H1.
  - destruct ds as [|d2 ds]; [eexists; eapply ev_alts_last; exact H1|]. destruct (IH ltac:(discriminate) s Hs) as ([s2 e2|l2 s2 e2|h] & H2).
    + eexists. eapply ev_alts_next; eauto.
    + destruct (alts_no _ _ _ _ _ _ _ H2) as (-> & -> & _). eexists. eapply ev_alts_no; eauto.
    + eexists. eapply ev_alts_next_halt; eauto.
  - eexists. apply ev_alts_halt. exact H1.
Qed.
Lemma ends_defs : forall k ds, Forall (fun d => ends k (NSeq d)) ds -> ends k (NDefs ds).
Proof.
  intros k ds HF s Hs. destruct ds as [|d1 [|d2 ds]].
  - eexists. apply ev_defs_none.
  - destruct (Forall_inv HF s Hs) as (o & H). eexists. apply ev_defs_one. exact H.
  - destruct (ends_alts k (d1 :: d2 :: ds) ltac:(discriminate) HF s Hs) as (o & H). exact (defs_has rules cfg d1 d2 ds s o H).
Qed.
Lemma ends_ref : forall k l id, (forall r, names rules id r -> ends k (NDefs (r_defs r))) -> ends k (NRef l id).
Proof.
  intros k l id H s Hs. destruct (defined_dec rules id) as [(r & Hr)|Hu]; [|eexists; apply ev_ref_undefined; exact Hu].
  destruct (H r Hr s Hs) as ([s1 e1|l1 s1 e1|h] & H1); eexists; [eapply ev_ref|eapply ev_ref_no|eapply ev_ref_halt]; eauto.
Qed.
Definition bodies (k : nat) (n : node) : Prop := forall r, starts n r -> ends k (NDefs (r_defs r)).
Definition below (k : nat) : Prop := forall s ts, length (p_rest s) < k -> exists o, ev (NSeq ts) s o.
Section Level.
Variable k : nat.
Hypothesis Hbelow : below k.
Lemma ends_factor : forall n p, ends k (NPrim p) -> ends k (NFactor (Factor n p)).
Proof.
  intros n p H s Hs. destruct (N.eq_dec n 1) as [->|Hn].
  - destruct (H s Hs) as (o & Ho). eexists. apply ev_factor_one. exact Ho.
  - destruct (ends_times k _ H n n n 0%N ltac:(lia) s Hs) as (o & Ho). eexists. apply ev_factor_many; eauto.
Qed.
Lemma ends_term : forall f e, ends k (NFactor f) -> (forall e', e = Some e' -> ends k (NFactor e')) -> ends k (NTerm (Term f e)).
Proof.
  intros f [e|] Hf He s Hs.
  - destruct (Hf s Hs) as ([s1 e1|l s1 e1|h] & H1).
    + destruct (ev_moved _ _ _ _ _ H1) as (w & Hw). destruct (He e eq_refl (Pst w (p_at s))) as (o & Ho).
      { cbn. destruct Hw as (Hw & _). rewrite Hw, app_length in Hs. lia. }
      destruct o as [s2 e2|l2 s2 e2|h].
      * destruct (p_rest s2) as [|c r] eqn:E; [eexists; eapply ev_term_excepted; eauto|].
        eexists. eapply ev_term_kept; [exact H1|exact Hw|exact Ho|]. left. exists s2, e2. split; [reflexivity|]. rewrite E. discriminate.
      * eexists. eapply ev_term_kept; [exact H1|exact Hw|exact Ho|]. right. eauto.
      * eexists. eapply ev_term_exc_halt; eauto.
    + eexists. eapply ev_term_no; eauto.
    + eexists. eapply ev_term_halt; eauto.
  - destruct (Hf s Hs) as (o & Ho). eexists. apply ev_term_plain. exact Ho.
Qed.
Lemma goes_dec : forall w s, (exists s', goes s w s') \/ forall s', ~ goes s w s'.
Proof.
  intros w s. destruct (list_eq_dec N.eq_dec (firstn (length w) (p_rest s)) w) as [E|E].
  - left. exists (move (length w) s). apply goes_push. unfold move. cbn. rewrite E. split; [|reflexivity]. rewrite <- E at 1. rewrite firstn_skipn. reflexivity.
  - right. intros s' (H & _). apply E. rewrite H, firstn_app, Nat.sub_diag, firstn_O, app_nil_r, firstn_all. reflexivity.
Qed.
Definition good (p : primary) : Prop := bodies k (NPrim p) -> ends k (NPrim p).
Lemma good_term : forall t, P_term good t -> bodies k (NTerm t) -> ends k (NTerm t).
Proof.
  intros [[n p] e] (H1 & H2) Hb. cbn in *. apply ends_term.
  - apply ends_factor. apply H1. intros r Hr. apply Hb. constructor. constructor. exact Hr.
  - intros [n' p'] ->. apply ends_factor. apply H2. intros r Hr. apply Hb. apply st_except. constructor. exact Hr.
Qed.
Lemma good_seq : forall ts, Forall (P_term good) ts -> bodies k (NSeq ts) -> ends k (NSeq ts).
Proof.
  intros ts HF. induction HF as [|t ts Ht HF IH]; intros Hb s Hs; [eexists; apply ev_seq_nil|].
  assert (Ht' : ends k (NTerm t)) by (apply good_term; [exact Ht|]; intros r Hr; apply Hb; apply st_seq; exact Hr).
  destruct (Ht' s Hs) as (o1 & H1). destruct (bare_group t) as [d|] eqn:Eb.
  - eexists. eapply ev_seq_group; [exact Eb|]. eapply bare_group_ev; eauto.
  - destruct o1 as [s1 e1|l s1 e1|h].
    + assert (K : exists o, ev (NSeq ts) s1 o).
      { pose proof (ev_moved _ _ _ _ _ H1) as Hm. cbn in Hm. destruct (le_lt_dec k (length (p_rest s1))) as [L|L]; [|apply Hbelow; exact L].
        assert (s1 = s) by (apply moved_same; [exact Hm|lia]). subst s1.
        apply IH; [|exact Hs]. intros r Hr. apply Hb. apply st_after; [exact Eb| |exact Hr]. exact (ev_rests _ _ _ H1 eq_refl). }
      destruct K as (o & K). eexists. eapply ev_seq; eauto.
    + eexists. eapply ev_seq_no; eauto.
    + eexists. eapply ev_seq_halt; eauto.
Qed.
Lemma good_defs : forall d, Forall (Forall (P_term good)) d -> bodies k (NDefs d) -> ends k (NDefs d).
Proof.
  intros d HF Hb. apply ends_defs. rewrite Forall_forall in *. intros ts Hts. apply good_seq; [apply HF; exact Hts|].
  intros r Hr. apply Hb. eapply st_defs; eauto.
Qed.
Lemma good_prim : forall p, good p.
Proof.
  induction p as [l d IH|l d IH|l d IH|l id|l w|l c|l] using primary_nested; intros Hb s Hs.
  - assert (Hd : ends k (NDefs d)) by (apply good_defs; [exact IH|]; intros r Hr; apply Hb; constructor; exact Hr).
    destruct (ends_times k _ Hd 0%N 1%N 1%N 0%N ltac:(lia) s Hs) as (o & Ho). eexists. apply ev_optional. exact Ho.
  - assert (Hd : ends k (NDefs d)) by (apply good_defs; [exact IH|]; intros r Hr; apply Hb; constructor; exact Hr).
    destruct (ends_times k _ Hd 0%N max_count max_count 0%N ltac:(lia) s Hs) as (o & Ho). eexists. apply ev_repeated. exact Ho.
  - assert (Hd : ends k (NDefs d)) by (apply good_defs; [exact IH|]; intros r Hr; apply Hb; constructor; exact Hr).
    destruct (Hd s Hs) as (o & Ho). eexists. apply ev_grouped. exact Ho.
  - destruct (ends_ref k l id ltac:(intros r Hr; apply Hb; constructor; exact Hr) s Hs) as (o & Ho). eexists. apply ev_meta. exact Ho.
  - destruct (goes_dec w s) as [(s' & H)|H]; eexists; [eapply ev_terminal; exact H|apply ev_terminal_no; exact H].
  - destruct (scanned_total (cfg l c) l s) as ([s' e| |id s'|e] & H).
    + eexists. eapply ev_special. exact H.
    + eexists. eapply ev_special_no. exact H.
    + assert (Hm : length (p_rest s') <= k) by (pose proof (moved_len _ _ (scanned_moved _ _ _ _ H)); lia).
      assert (K : (exists o, ev (NFwd id) s' o) \/ (~ defined rules id /\ forall r, In r rules -> ~ dollar id r)).
      { destruct (defined_dec rules id) as [(r & Hr)|Hu].
        - left. assert (Hd : ends k (NDefs (r_defs r))) by (apply Hb; eapply st_forward; eauto). destruct (Hd s' Hm) as (o & Ho).
          eexists. eapply ev_fwd; eauto.
        - destruct (dollar_dec rules id) as [(r & Hin & Hr)|Hd]; [left|right; auto].
          destruct (ends_ref k (r_loc r) (r_id r) ltac:(intros r2 Hr2; apply Hb; eapply st_dollar; eauto) s' Hm) as (o & Ho).
          eexists. eapply ev_fwd_alias; eauto. }
      destruct K as [([s2 e2|l2 s2 e2|h] & K)|(K1 & K2)].
      * eexists. eapply ev_forward; eauto.
      * eexists. eapply ev_forward_no; eauto.
      * eexists. eapply ev_forward_halt; eauto.
      * eexists. eapply ev_forward_unknown; eauto.
    + eexists. eapply ev_special_fail. exact H.
  - eexists. apply ev_empty.
Qed.
End Level.
Hypothesis Hleft : forall r, In r rules -> ~ left_recursive rules cfg r.
Lemma starts_in : forall n r, starts n r -> In r rules.
Proof. intros n r H. induction H; auto; try (match goal with X : names _ _ _ |- _ => exact (proj1 X) end). Qed.
Lemma tries_acc : forall r, Acc (fun y x => tries rules cfg x y) r.
Proof.
  intros r. apply (finite_acc rule (tries rules cfg) rules) with (n := S (length rules)) (seen := []).
  - intros x y (H1 & H2). split; [exact H1|eapply starts_in; exact H2].
  - intros x H. apply (Hleft x); [|exact H]. apply clos_trans_t1n in H. inversion H as [y Hy|y z Hy]; subst; exact (proj1 Hy).
  - cbn. lia.
  - constructor.
  - intros x [].
  - intros y [].
Qed.
Lemma below_all : forall k, below k.
Proof.
  induction k as [|k IH]; intros s ts Hs; [lia|].
  assert (Hr : forall r, In r rules -> ends k (NDefs (r_defs r))).
  { intros r. induction (tries_acc r) as [r _ IHr]. intros Hin. apply good_defs; [exact IH| |].
    - rewrite Forall_forall. intros ts' _. rewrite Forall_forall. intros t _. split; [apply good_prim; exact IH|]. destruct (t_exc t); [apply good_prim; exact IH|exact I].
    - intros r' Hr'. apply IHr; [split; assumption|eapply starts_in; exact Hr']. }
  apply good_seq with (k := k); [exact IH| |intros r Hst; apply Hr; eapply starts_in; exact Hst|lia].
  rewrite Forall_forall. intros t _. split; [apply good_prim; exact IH|]. destruct (t_exc t); [apply good_prim; exact IH|exact I].
Qed.
Lemma defs_end : forall d s, exists o, ev (NDefs d) s o.
Proof.
  intros d s. apply (ends_defs (length (p_rest s))); [|lia]. rewrite Forall_forall. intros ts _ s' Hs'. apply (below_all (S (length (p_rest s)))). lia.
Qed.
Lemma ref_ends : forall l id s, exists o, ev (NRef l id) s o.
Proof. intros l id s. apply (ends_ref (length (p_rest s))); [|lia]. intros r _ s' _. apply defs_end. Qed.
End Total.

(** ** Parsing *)
Lemma parse_debug_fuel : forall g fuel m rd, reader rd ->
  fst (parser_parse true g fuel m rd) = OutOfFuel -> fst (parser_parse false g fuel m rd) = OutOfFuel.
Proof.
  intros g fuel m rd Hr H. destruct (parse_reader true g fuel m rd Hr) as (A & _). destruct (parse_reader false g fuel m rd Hr) as (B & _).
  rewrite A in H. rewrite B. clear A B. unfold pmachine_parse in *.
  destruct (prun g fuel (ending_of rd) (Some (mc_entry m)) [] (stand rd)) as ([([|e] & evs)|e|p|] & s1) eqn:E.
  - rewrite (pbind_ok _ _ _ _ _ E); rewrite (pbind_ok _ _ _ _ _ E) in H. destruct (peof (ending_of rd) s1) as ([[|]|e|p|] & s2) eqn:E2.
    + rewrite (pbind_ok _ _ _ _ _ E2); rewrite (pbind_ok _ _ _ _ _ E2) in H. cbn [andb] in H. destruct (negb (removed_labels_agree (List.tl evs))); discriminate.
    + rewrite (pbind_ok _ _ _ _ _ E2); rewrite (pbind_ok _ _ _ _ _ E2) in H. exact H.
    + rewrite (pbind_err _ _ _ _ _ E2); rewrite (pbind_err _ _ _ _ _ E2) in H. exact H.
    + rewrite (pbind_panic _ _ _ _ _ E2); rewrite (pbind_panic _ _ _ _ _ E2) in H. exact H.
    + rewrite (pbind_fuel _ _ _ _ E2); rewrite (pbind_fuel _ _ _ _ E2) in H. reflexivity.
  - rewrite (pbind_ok _ _ _ _ _ E); rewrite (pbind_ok _ _ _ _ _ E) in H. exact H.
  - rewrite (pbind_err _ _ _ _ _ E); rewrite (pbind_err _ _ _ _ _ E) in H. exact H.
  - rewrite (pbind_panic _ _ _ _ _ E); rewrite (pbind_panic _ _ _ _ _ E) in H. exact H.
  - rewrite (pbind_fuel _ _ _ _ E); rewrite (pbind_fuel _ _ _ _ E) in H. reflexivity.
Qed.
Lemma parse_returns : forall rs cfg g id m debug rd o, parser_for rs cfg g id m -> reader rd -> ending_of rd = None ->
  means rs cfg id (stand rd) o -> exists f0, forall fuel, f0 <= fuel -> fst (parser_parse debug g fuel m rd) <> OutOfFuel.
Proof.
  intros rs cfg g id m debug rd o Hp Hr He Ho. destruct (parse_complete_api rs cfg g id m false rd o Hp Hr He Ho) as (f0 & Hf). exists f0.
  intros fuel Hle. specialize (Hf fuel Hle). assert (K : fst (parser_parse false g fuel m rd) <> OutOfFuel).
  { destruct o as [s' raw|l s' raw|[e|]]; [destruct (p_rest s')| | |].
    - rewrite Hf by auto. discriminate.
    - rewrite Hf. discriminate.
    - rewrite Hf. discriminate.
    - rewrite Hf. discriminate.
    - destruct Hf as (p & ->). discriminate. }
  destruct debug; [|exact K]. intros H. apply K. apply parse_debug_fuel; assumption.
Qed.
Lemma parse_ends : forall rs cfg g id m debug rd, parser_for rs cfg g id m -> reader rd -> ending_of rd = None ->
  (forall r, In r rs -> ~ left_recursive rs cfg r) ->
  exists f0, forall fuel, f0 <= fuel -> fst (parser_parse debug g fuel m rd) <> OutOfFuel.
Proof.
  intros rs cfg g id m debug rd Hp Hr He Hl. destruct (parser_rule _ _ _ _ _ Hp) as (r & Hnm & _).
  destruct (ref_ends rs cfg Hl (r_loc r) (r_id r) (stand rd)) as (o & Ho). eapply parse_returns; eauto. exists r. split; [exact Hnm|exact Ho].
Qed.
Lemma parse_diverges : forall rs cfg g id m debug fuel rd, parser_for rs cfg g id m -> reader rd -> ending_of rd = None ->
  (forall o, ~ means rs cfg id (stand rd) o) -> fst (parser_parse debug g fuel m rd) = OutOfFuel.
Proof.
  intros rs cfg g id m debug fuel rd Hp Hr He H. pose proof (parse_sound_api rs cfg g id m debug fuel rd Hp Hr He) as K.
  destruct (fst (parser_parse debug g fuel m rd)) as [evs|e|p|]; [| | |reflexivity]; exfalso.
  - destruct K as (raw & K & _). exact (H _ K).
  - destruct K as [(s1 & raw & K)|[(s' & raw & K & _)|K]]; exact (H _ K).
  - destruct K as [K|(_ & s' & raw & K & _)]; exact (H _ K).
Qed.
