(** A parse returns exactly when no rule is tried again where it is being tried. *)
From Coq Require Import String List NArith Arith Bool Lia Relations Wellfounded.
From Verif Require Import Base Ident Tokenizer Ast Lex Syntax Io Graph Machine SpecText SpecSyntax SpecIo TextFacts SyntaxFacts IoFacts SpecParse SpecMachine SpecTotal SpecLoop Pure PureFacts ParseFacts CodeFacts RunFacts EvFacts MachineFacts TotalFacts.
Import ListNotations.
Open Scope nat_scope.

Section Loop.
Variable rules : list rule.
Variable cfg : config.
Notation ev := (ev rules cfg).
Notation asks := (asks rules cfg).
Notation leads := (leads rules cfg).
(** ** What has an outcome does not go round *)
Section Det.
Hypothesis Hn : no_repeat rules.
Hypothesis Hd : no_dollar rules.
Definition settled (n : node) (s : pst) : Prop := forall r s', asks n s r s' -> Acc (fun y x => leads x y) (r, s').
Lemma same : forall n s o1 o2, ev n s o1 -> ev n s o2 -> o1 = o2.
Proof. intros. eapply ev_fun; eauto. Qed.
Ltac clash := match goal with A : ev ?n ?s ?a, B : ev ?n ?s ?b |- _ => first [constr_eq a b; fail 1|let E := fresh in pose proof (same _ _ _ _ A B) as E; try discriminate E; try (injection E as E; subst); clear B] end.
Lemma ev_settled : forall n s o, ev n s o -> settled n s.
Proof.
  intros n s o H. induction H; intros r' s9 Ha; inversion Ha; subst; auto; try congruence; try lia.
  all: repeat clash.
  all: auto; try congruence; try lia.
  all: try (match goal with A : scanned ?c ?l ?s ?r1, B : scanned ?c ?l ?s ?r2 |- _ =>
    let E := fresh in pose proof (scanned_fun _ _ _ _ _ A B) as E; try discriminate E; injection E as E; subst; clear B end).
  all: try (match goal with A : names rules ?id ?r, B : names rules ?id ?r' |- _ =>
    first [constr_eq r r'; fail 1 | pose proof (names_unique _ _ _ _ Hn A B); subst r'; clear B] end).
  all: try (match goal with A : dollar ?id ?a, B : dollar ?id ?b |- _ => first [constr_eq a b; fail 1|assert (a = b) by (eapply dollar_unique; eauto); subst] end).
  all: try (exfalso; eapply names_dollar; eassumption).
  all: try (constructor; intros (r2 & s2) Hl; apply IHev; exact Hl).
  all: try (match goal with A : bare_group ?t = Some _, B : bare_group ?t = Some _ |- _ => rewrite A in B; injection B as B; subst end).
  all: auto.
  all: try (exfalso; match goal with K : ~ defined rules _ |- _ => apply K; match goal with R : names rules _ _ |- _ => destruct R; eexists; eauto end end).
  all: try (exfalso; match goal with K : max_count = max_count -> _ |- _ => apply K; auto; fail end).
  all: try (match goal with A : goes ?s ?w1 ?s', B : goes ?s ?w2 ?s' |- _ =>
    first [constr_eq w1 w2; fail 1 | let E := fresh in pose proof (goes_word _ _ _ _ A B) as E; subst w2; clear B] end; auto).
  - exfalso. match goal with K : asks (NFwd _) _ _ _ |- _ => inversion K; subst end; [|match goal with K : forall r, In r rules -> ~ dollar _ r, X : dollar _ ?q |- _ => exact (K q ltac:(assumption) X) end].
    match goal with K : ~ defined rules _, R : names rules _ _ |- _ => apply K; destruct R; eexists; eauto end.
  - match goal with K : asks (NAlts []) _ _ _ |- _ => inversion K end.
Qed.
End Det.

(** ** What does not go round has an outcome *)
Definition answered (n : node) (s : pst) : Prop := forall r s', asks n s r s' -> exists o, ev (NDefs (r_defs r)) s' o.
Definition ended (n : node) : Prop := forall s, answered n s -> exists o, ev n s o.
Lemma ended_times : forall b, ended b -> forall mn mx j i, (mx - i <= j)%N -> ended (NTimes mn mx i b).
Proof.
  intros b Hb mn mx j. induction j as [|j IH] using N.peano_ind; intros i Hj s Hs.
  - eexists. apply ev_times_end. lia.
  - destruct (N.lt_ge_cases i mx) as [Hi|Hi]; [|eexists; apply ev_times_end; exact Hi].
    destruct (Hb s ltac:(intros r s' Ha; apply Hs; apply as_round; assumption)) as ([s1 e1|l s1 e1|h] & H1).
    + assert (K : (mx = max_count /\ p_at s1 = p_at s) \/ (mx = max_count -> p_at s1 <> p_at s)).
      { destruct (loc_eqb (p_at s1) (p_at s)) eqn:El; [apply loc_eqb_eq in El|].
        - destruct (N.eq_dec mx max_count); [left; auto|right; intros; contradiction].
        - right. intros _ E. rewrite E, loc_eqb_refl in El. discriminate. }
      destruct K as [(E1 & E2)|K]; [eexists; eapply ev_times_livelock; eauto|].
      destruct (IH (i + 1)%N ltac:(lia) s1 ltac:(intros r s' Ha; apply Hs; eapply as_rounds; eassumption)) as ([s2 e2|l2 s2 e2|h] & H2).
      * eexists. eapply ev_times_more; eauto.
      * rewrite (times_no _ _ _ _ _ _ _ _ _ _ H2) in H2. eexists. eapply ev_times_no; eauto.
      * eexists. eapply ev_times_more_halt; eauto.
    + destruct (N.lt_ge_cases i mn); [eexists; eapply ev_times_short; eauto|eexists; eapply ev_times_stop; eauto].
    + eexists. eapply ev_times_halt; eauto.
Qed.
Lemma ended_alts : forall ds, ds <> [] -> Forall (fun d => ended (NSeq d)) ds -> ended (NAlts ds).
Proof.
  intros ds Hne HF. induction HF as [|d ds Hd HF IH]; [contradiction|]. intros s Hs.
  destruct (Hd s ltac:(intros r s' Ha; apply Hs; apply as_alts; assumption)) as ([s1 e1|l s1 e1|h] & H1).
  - eexists. apply ev_alts_first. exact H1.
  - destruct ds as [|d2 ds]; [eexists; eapply ev_alts_last; exact H1|].
    destruct (IH ltac:(discriminate) s ltac:(intros r s' Ha; apply Hs; eapply as_alts_next; eassumption)) as ([s2 e2|l2 s2 e2|h] & H2).
    + eexists. eapply ev_alts_next; eauto.
    + destruct (alts_no _ _ _ _ _ _ _ H2) as (-> & -> & _). eexists. eapply ev_alts_no; eauto.
    + eexists. eapply ev_alts_next_halt; eauto.
  - eexists. apply ev_alts_halt. exact H1.
Qed.
Lemma ended_defs : forall ds, Forall (fun d => ended (NSeq d)) ds -> ended (NDefs ds).
Proof.
  intros ds HF s Hs. destruct ds as [|d1 [|d2 ds]].
  - eexists. apply ev_defs_none.
  - destruct (Forall_inv HF s ltac:(intros r s' Ha; apply Hs; apply as_defs_one; assumption)) as (o & H). eexists. apply ev_defs_one. exact H.
  - destruct (ended_alts (d1 :: d2 :: ds) ltac:(discriminate) HF s ltac:(intros r s' Ha; apply Hs; apply as_defs; assumption)) as (o & H). exact (defs_has rules cfg d1 d2 ds s o H).
Qed.
Lemma ended_ref : forall l id, ended (NRef l id).
Proof.
  intros l id s Hs. destruct (defined_dec rules id) as [(r & Hr)|Hu]; [|eexists; apply ev_ref_undefined; exact Hu].
  destruct (Hs r s (as_ref _ _ _ _ _ _ Hr)) as ([s1 e1|l1 s1 e1|h] & H1); eexists; [eapply ev_ref|eapply ev_ref_no|eapply ev_ref_halt]; eauto.
Qed.
Lemma ended_factor : forall n p, ended (NPrim p) -> ended (NFactor (Factor n p)).
Proof.
  intros n p H s Hs. destruct (N.eq_dec n 1) as [->|Hn].
  - destruct (H s ltac:(intros r s' Ha; apply Hs; apply as_factor_one; assumption)) as (o & Ho). eexists. apply ev_factor_one. exact Ho.
  - destruct (ended_times _ H n n n 0%N ltac:(lia) s ltac:(intros r s' Ha; apply Hs; apply as_factor_many; assumption)) as (o & Ho). eexists. apply ev_factor_many; eauto.
Qed.
Lemma ended_term : forall t, P_term (fun p => ended (NPrim p)) t -> ended (NTerm t).
Proof.
  intros [[n p] e] (H1 & H2) s Hs. cbn in H1. destruct (ended_factor n p H1 s ltac:(intros r s' Ha; apply Hs; apply as_term; assumption)) as (o1 & Ho1).
  destruct e as [[n' p']|].
  - cbn in H2. destruct o1 as [s1 e1|l s1 e1|h].
    + destruct (ev_moved _ _ _ _ _ Ho1) as (w & Hw).
      destruct (ended_factor n' p' H2 (Pst w (p_at s)) ltac:(intros r s' Ha; apply Hs; eapply as_except; eassumption)) as (o & Ho).
      destruct o as [s2 e2|l2 s2 e2|h].
      * destruct (p_rest s2) as [|c r] eqn:E; [eexists; eapply ev_term_excepted; eauto|].
        eexists. eapply ev_term_kept; [exact Ho1|exact Hw|exact Ho|]. left. exists s2, e2. split; [reflexivity|]. rewrite E. discriminate.
      * eexists. eapply ev_term_kept; [exact Ho1|exact Hw|exact Ho|]. right. eauto.
      * eexists. eapply ev_term_exc_halt; eauto.
    + eexists. eapply ev_term_no; eauto.
    + eexists. eapply ev_term_halt; eauto.
  - eexists. apply ev_term_plain. exact Ho1.
Qed.
Lemma ended_seq : forall ts, Forall (P_term (fun p => ended (NPrim p))) ts -> ended (NSeq ts).
Proof.
  intros ts HF. induction HF as [|t ts Ht HF IH]; intros s Hs; [eexists; apply ev_seq_nil|].
  destruct (bare_group t) as [d|] eqn:Eb.
  - destruct (bare_shape _ _ Eb) as (l & ->). pose proof (ended_term _ Ht s) as K. destruct K as (o1 & H1).
    { intros r s' Ha. apply Hs. eapply as_seq_group; [exact Eb|].
      repeat match goal with X : asks (NTerm _) _ _ _ |- _ => inversion X; clear X; subst | X : asks (NFactor _) _ _ _ |- _ => inversion X; clear X; subst | X : asks (NPrim _) _ _ _ |- _ => inversion X; clear X; subst end; try congruence; assumption. }
    eexists. eapply ev_seq_group; [exact Eb|]. eapply bare_group_ev; eauto.
  - destruct (ended_term _ Ht s ltac:(intros r s' Ha; apply Hs; apply as_seq; assumption)) as ([s1 e1|l s1 e1|h] & H1).
    + destruct (IH s1 ltac:(intros r s' Ha; apply Hs; eapply as_seq_next; eassumption)) as (o & K). eexists. eapply ev_seq; eauto.
    + eexists. eapply ev_seq_no; eauto.
    + eexists. eapply ev_seq_halt; eauto.
Qed.
Lemma ended_list : forall d, Forall (Forall (P_term (fun p => ended (NPrim p)))) d -> ended (NDefs d).
Proof. intros d HF. apply ended_defs. rewrite Forall_forall in *. intros ts Hts. apply ended_seq. apply HF. exact Hts. Qed.
Lemma ended_prim : forall p, ended (NPrim p).
Proof.
  induction p as [l d IH|l d IH|l d IH|l id|l w|l c|l] using primary_nested; intros s Hs.
  - destruct (ended_times _ (ended_list _ IH) 0%N 1%N 1%N 0%N ltac:(lia) s ltac:(intros r s' Ha; apply Hs; apply as_optional; assumption)) as (o & Ho). eexists. apply ev_optional. exact Ho.
  - destruct (ended_times _ (ended_list _ IH) 0%N max_count max_count 0%N ltac:(lia) s ltac:(intros r s' Ha; apply Hs; apply as_repeated; assumption)) as (o & Ho). eexists. apply ev_repeated. exact Ho.
  - destruct (ended_list _ IH s ltac:(intros r s' Ha; apply Hs; apply as_group; assumption)) as (o & Ho). eexists. apply ev_grouped. exact Ho.
  - destruct (ended_ref l id s ltac:(intros r s' Ha; apply Hs; apply as_meta; assumption)) as (o & Ho). eexists. apply ev_meta. exact Ho.
  - destruct (goes_dec w s) as [(s' & H)|H]; eexists; [eapply ev_terminal; exact H|apply ev_terminal_no; exact H].
  - destruct (scanned_total (cfg l c) l s) as ([s' e| |id s'|e] & H).
    + eexists. eapply ev_special. exact H.
    + eexists. eapply ev_special_no. exact H.
    + assert (K : (exists o, ev (NFwd id) s' o) \/ (~ defined rules id /\ forall r, In r rules -> ~ dollar id r)).
      { destruct (defined_dec rules id) as [(r & Hr)|Hu].
        - left. destruct (Hs r s') as (o & Ho). { eapply as_forward; [exact H|]. apply as_fwd. exact Hr. } eexists. eapply ev_fwd; eauto.
        - destruct (dollar_dec rules id) as [(r & Hin & Hr)|Hd]; [left|right; auto].
          destruct (ended_ref (r_loc r) (r_id r) s') as (o & Ho). { intros r2 s2 Ha. apply Hs. eapply as_forward; [exact H|]. eapply as_fwd_alias; eauto. }
          eexists. eapply ev_fwd_alias; eauto. }
      destruct K as [([s2 e2|l2 s2 e2|h] & K)|(K1 & K2)].
      * eexists. eapply ev_forward; eauto.
      * eexists. eapply ev_forward_no; eauto.
      * eexists. eapply ev_forward_halt; eauto.
      * eexists. eapply ev_forward_unknown; eauto.
    + eexists. eapply ev_special_fail. exact H.
  - eexists. apply ev_empty.
Qed.
Lemma acc_ends : forall a, Acc (fun y x => leads x y) a -> exists o, ev (NDefs (r_defs (fst a))) (snd a) o.
Proof.
  intros a H. induction H as [a _ IH]. apply ended_list.
  - rewrite Forall_forall. intros ts _. rewrite Forall_forall. intros t _. split; [apply ended_prim|]. unfold P_exc. destruct (t_exc t); [apply ended_prim|exact I].
  - intros r s' Ha. exact (IH (r, s') Ha).
Qed.

(** ** Finitely many places *)
Definition inside_of (s x : pst) : Prop := exists u y v, goes s u y /\ p_at x = p_at y /\ p_rest y = p_rest x ++ v.
Definition spots (s : pst) : list pst :=
  flat_map (fun i => map (fun j => Pst (firstn j (skipn i (p_rest s))) (p_at (move i s))) (seq 0 (S (length (p_rest s))))) (seq 0 (S (length (p_rest s)))).
Lemma spots_all : forall s x, inside_of s x -> In x (spots s).
Proof.
  intros s x (u & y & v & Hg & Hat & Hy). apply in_flat_map. exists (length u). pose proof (proj1 Hg) as H. rewrite Hy in H.
  assert (L : length u + length (p_rest x) <= length (p_rest s)) by (rewrite H, !app_length; lia).
  split; [apply in_seq; lia|]. apply in_map_iff. exists (length (p_rest x)). split; [|apply in_seq; lia].
  rewrite (goes_move _ _ _ Hg), H, skipn_app, Nat.sub_diag, skipn_all, skipn_O. cbn [app]. rewrite firstn_app, Nat.sub_diag, firstn_all, firstn_O, app_nil_r.
  destruct x. cbn in *. rewrite Hat. reflexivity.
Qed.
Lemma inside_self : forall s, inside_of s s.
Proof. intros s. exists [], s, []. split; [apply goes_push; split; reflexivity|]. split; [reflexivity|]. rewrite app_nil_r. reflexivity. Qed.
Lemma inside_moved : forall s s1 x, moved s s1 -> inside_of s1 x -> inside_of s x.
Proof. intros s s1 x (w & Hw) (u & y & v & Hg & H). exists (w ++ u), y, v. split; [eapply goes_app; eauto|exact H]. Qed.
Lemma inside_part : forall s w s1 x, goes s w s1 -> inside_of (Pst w (p_at s)) x -> inside_of s x.
Proof.
  intros s w s1 x Hw (u & y & v & Hg & Hat & Hy). apply goes_push in Hg as (A & B). cbn in A, B. apply goes_push in Hw as (C & _).
  exists u, (Pst (p_rest y ++ p_rest s1) (p_at y)), (v ++ p_rest s1). split; [|split; [exact Hat|cbn; rewrite Hy, app_assoc; reflexivity]].
  apply goes_push. cbn. rewrite C, A, app_assoc. split; [reflexivity|exact B].
Qed.
Lemma inside_trans : forall s x y, inside_of s x -> inside_of x y -> inside_of s y.
Proof.
  intros s x y (u & s1 & v & Hg & Hat & Hr) Hy. eapply inside_moved; [exists u; exact Hg|].
  apply (inside_part s1 (p_rest x) (move (length (p_rest x)) s1)).
  - apply goes_push. unfold move. cbn. rewrite Hr, firstn_app, Nat.sub_diag, firstn_all, firstn_O, app_nil_r, skipn_app, Nat.sub_diag, skipn_all. split; reflexivity.
  - rewrite <- Hat. destruct x. exact Hy.
Qed.
Lemma asks_inside : forall n s r s', asks n s r s' -> inside_of s s'.
Proof.
  intros n s r s' H. induction H; auto; try apply inside_self.
  - eapply inside_moved; [exact (scanned_moved _ _ _ _ H)|exact IHasks].
  - eapply inside_moved; [exact (ev_moved _ _ _ _ _ H0)|exact IHasks].
  - eapply inside_part; eauto.
  - eapply inside_moved; [exact (ev_moved _ _ _ _ _ H0)|exact IHasks].
Qed.
Lemma asks_rule : forall n s r s', asks n s r s' -> In r rules.
Proof. intros n s r s' H. induction H; auto; match goal with X : names _ _ _ |- _ => exact (proj1 X) end. Qed.
Notation onward := (clos_refl_trans (rule * pst) leads).
Lemma onward_in : forall a b, onward a b -> In (fst a) rules -> In (fst b) rules /\ inside_of (snd a) (snd b).
Proof.
  intros a b H. induction H as [a b H|a|a b c H1 IH1 H2 IH2]; intros Hin.
  - split; [eapply asks_rule; exact H|eapply asks_inside; exact H].
  - split; [exact Hin|apply inside_self].
  - destruct (IH1 Hin) as (K1 & K2). destruct (IH2 K1) as (K3 & K4). split; [exact K3|eapply inside_trans; eauto].
Qed.
Lemma no_loop_acc : forall a, In (fst a) rules -> (forall b, onward a b -> ~ goes_round rules cfg b) -> Acc (fun y x => leads x y) a.
Proof.
  intros a Hin Hno. set (R := fun x y => onward a x /\ leads x y).
  assert (K : forall x, onward a x -> Acc (fun y x => R x y) x -> Acc (fun y x => leads x y) x).
  { intros x Hx H. revert Hx. induction H as [x _ IH]. intros Hx. constructor. intros y Hy. apply IH; [split; assumption|]. eapply rt_trans; [exact Hx|apply rt_step; exact Hy]. }
  apply K; [apply rt_refl|].
  apply (finite_acc _ R (list_prod rules (spots (snd a)))) with (n := S (length (list_prod rules (spots (snd a))))) (seen := []).
  - assert (P : forall x, onward a x -> In x (list_prod rules (spots (snd a)))).
    { intros (r & s) Hx. destruct (onward_in _ _ Hx Hin) as (H1 & H2). apply in_prod; [exact H1|apply spots_all; exact H2]. }
    intros x y (H1 & H2). split; apply P; [exact H1|]. eapply rt_trans; [exact H1|apply rt_step; exact H2].
  - intros x H. assert (G : forall x y, clos_trans _ R x y -> onward a x /\ clos_trans _ leads x y).
    { intros u v C. induction C as [u v C|u w v C1 (I1 & I2) C2 (I3 & I4)]; [split; [exact (proj1 C)|apply t_step; exact (proj2 C)]|]. split; [exact I1|eapply t_trans; eauto]. }
    destruct (G _ _ H) as (G1 & G2). exact (Hno x G1 G2).
  - cbn. lia.
  - constructor.
  - intros x [].
  - intros y [].
Qed.
Lemma acc_no_round : forall a, Acc (fun y x => leads x y) a -> forall b, onward a b -> ~ goes_round rules cfg b.
Proof.
  intros a H b Hb. assert (K : Acc (fun y x => leads x y) b).
  { apply clos_rt_rt1n in Hb. induction Hb as [a|a c b H1 _ IH]; [exact H|]. apply IH. exact (Acc_inv H H1). }
  clear H Hb a. intros Hr. revert Hr. induction K as [b _ IH]. intros Hr. unfold goes_round in Hr. apply clos_trans_t1n in Hr. inversion Hr as [c Hc E|c d Hc Hcd E]; subst.
  - apply (IH b Hc). apply t_step. exact Hc.
  - apply (IH c Hc). eapply t_trans; [apply clos_t1n_trans; exact Hcd|apply t_step; exact Hc].
Qed.
Theorem ends_iff : no_repeat rules -> no_dollar rules -> forall id s, defined rules id ->
  ((exists o, means rules cfg id s o) <-> ~ loops rules cfg id s).
Proof.
  intros Hn Hd id s (r & Hr). split.
  - intros (o & r' & Hr' & Ho) (r2 & a & Hr2 & Ha & Hround).
    pose proof (names_unique _ _ _ _ Hn Hr Hr'); subst r'. pose proof (names_unique _ _ _ _ Hn Hr Hr2); subst r2.
    revert Ha Hround. generalize a. intros b Hb. apply (acc_no_round (r, s)); [|exact Hb].
    apply (ev_settled Hn Hd _ _ _ Ho). apply as_ref. split; [exact (proj1 Hr)|apply same_name_keyed; reflexivity].
  - intros H. assert (K : Acc (fun y x => leads x y) (r, s)).
    { apply no_loop_acc; [exact (proj1 Hr)|]. intros b Hb Hround. apply H. exists r, b. split; [exact Hr|]. split; assumption. }
    destruct (ended_ref (r_loc r) (r_id r) s) as (o & Ho).
    { intros r2 s2 Ha. inversion Ha; subst. assert (r2 = r). { eapply names_unique; [exact Hn|eassumption|]. split; [exact (proj1 Hr)|apply same_name_keyed; reflexivity]. }
      subst r2. exact (acc_ends (r, s2) K). }
    exists o, r. split; assumption.
Qed.
End Loop.
