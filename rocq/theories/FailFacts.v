(** A parse of a text that ends with a failure, compared with a parse of any text that
    goes on from there. *)
From Coq Require Import String List NArith Arith Bool Lia.
From Verif Require Import Base Ident Tokenizer Ast Lex Syntax Io Graph Machine SpecText SpecSyntax TextFacts SpecParse SpecMachine Pure PureFacts ParseFacts CodeFacts SpecEvents MachineFacts.
Import ListNotations.
Open Scope nat_scope.

(** ** The scanners of a graph are those of the configuration *)
Section Specials.
Variable cfg : config.
Definition special_of (ins : instr) : Prop := forall sc, i_step ins = StSpecial sc -> exists c, sc = cfg (i_def ins) c.
Definition keeps (x : list instr -> option nat -> res (list instr * nat)) : Prop :=
  forall L next L' i, Forall special_of L -> x L next = Ok (L', i) -> Forall special_of L'.
Lemma keeps_push : forall L ins r, Forall special_of L -> push_instr L ins = Ok r -> special_of ins -> Forall special_of (fst r).
Proof. intros L ins r HL H Hi. apply push_ok in H. subst r. cbn. apply Forall_app. auto. Qed.
Lemma other_step : forall next sym def st, (forall sc, st <> StSpecial sc) -> special_of (Instr next sym def st).
Proof. intros next sym def st H sc E. exfalso. exact (H sc E). Qed.
Lemma keeps_factor : forall f, keeps (reg_primary cfg (f_prim f)) -> keeps (reg_factor cfg f).
Proof.
  intros f H L next L' i HL Hx. unfold reg_factor in Hx. destruct (N.eqb (f_rep f) 1); [exact (H _ _ _ _ HL Hx)|].
  apply bind_ok in Hx as ((L1 & sub) & H1 & H2). eapply (keeps_push L1 _ (L', i)); [exact (H _ _ _ _ HL H1)|exact H2|].
  apply other_step; intros ?; discriminate.
Qed.
Lemma keeps_term : forall t, P_term (fun p => keeps (reg_primary cfg p)) t -> keeps (reg_term cfg t).
Proof.
  intros [f [x|]] (Hf & He) L next L' i HL Hx; unfold reg_term in Hx; cbn [t_exc t_factor] in *.
  - apply bind_ok in Hx as ((L1 & fa) & H1 & Hx). apply bind_ok in Hx as ((L2 & ex) & H2 & H3).
    eapply (keeps_push L2 _ (L', i)); [|exact H3|apply other_step; intros ?; discriminate].
    eapply keeps_factor; [exact He| |exact H2]. eapply keeps_factor; [exact Hf|exact HL|exact H1].
  - eapply keeps_factor; [exact Hf|exact HL|exact Hx].
Qed.
Lemma keeps_terms : forall ts, Forall (P_term (fun p => keeps (reg_primary cfg p))) ts ->
  forall L next L' o, Forall special_of L -> reg_terms cfg ts L next = Ok (L', o) -> Forall special_of L'.
Proof.
  induction ts as [|t ts IH]; intros HF L next L' o HL Hx; cbn [reg_terms] in Hx.
  - injection Hx as <- <-. exact HL.
  - apply bind_ok in Hx as ((L1 & o1) & H1 & H2). apply bind_ok in H2 as ((L2 & idx) & H2 & H3). injection H3 as <- <-.
    eapply keeps_term; [exact (Forall_inv HF)| |exact H2]. exact (IH (Forall_inv_tail HF) _ _ _ _ HL H1).
Qed.
Lemma keeps_single : forall ts, Forall (P_term (fun p => keeps (reg_primary cfg p))) ts -> keeps (reg_single cfg ts).
Proof.
  intros ts HF L next L' i HL Hx. unfold reg_single in Hx. destruct ts as [|t ts]; [discriminate|].
  apply bind_ok in Hx as ((L1 & o) & H1 & H2). destruct o; [|discriminate]. injection H2 as -> ->. exact (keeps_terms _ HF _ _ _ _ HL H1).
Qed.
Lemma keeps_alts : forall ds, Forall (Forall (P_term (fun p => keeps (reg_primary cfg p)))) ds ->
  forall L next L' x y, Forall special_of L -> reg_alts cfg ds L next = Ok (L', x, y) -> Forall special_of L'.
Proof.
  induction ds as [|d ds IH]; intros HF L next L' x y HL Hx; cbn [reg_alts] in Hx.
  - injection Hx as <- <- <-. exact HL.
  - apply bind_ok in Hx as ((L1 & idx) & H1 & H2). destruct (nth_error L1 idx); [|discriminate].
    apply bind_ok in H2 as (((L2 & s2) & y2) & H2 & H3). injection H3 as -> <- <-.
    eapply (IH (Forall_inv_tail HF)); [|exact H2]. exact (keeps_single _ (Forall_inv HF) _ _ _ _ HL H1).
Qed.
Lemma keeps_defs : forall d, Forall (Forall (P_term (fun p => keeps (reg_primary cfg p)))) d -> keeps (reg_defs cfg d).
Proof.
  intros d HF L next L' i HL Hx.
  assert (G : (let? (steps, subs, syms) := reg_alts cfg d L next in match rev steps with [] => Panic PUnwrap | lst :: _ =>
     push_instr steps (Instr next (parallel_notation syms (of_string "or")) (i_def lst) (StOr subs)) end) = Ok (L', i) -> Forall special_of L').
  { intros H. apply bind_ok in H as (((L1 & subs) & syms) & H1 & H2). destruct (rev L1); [discriminate|].
    eapply (keeps_push L1 _ (L', i)); [|exact H2|apply other_step; intros ?; discriminate]. exact (keeps_alts _ HF _ _ _ _ _ HL H1). }
  unfold reg_defs in Hx. destruct d as [|d1 [|d2 ds]]; [exact (G Hx)| |exact (G Hx)]. exact (keeps_single _ (Forall_inv HF) _ _ _ _ HL Hx).
Qed.
Lemma keeps_primary : forall p, keeps (reg_primary cfg p).
Proof.
  induction p as [l d IH|l d IH|l d IH|l id|l s|l s|l] using primary_nested; intros L next L' i HL Hx.
  - rewrite reg_primary_optional in Hx. apply bind_ok in Hx as ((L1 & sub) & H1 & H2).
    eapply (keeps_push L1 _ (L', i)); [exact (keeps_defs _ IH _ _ _ _ HL H1)|exact H2|apply other_step; intros ?; discriminate].
  - rewrite reg_primary_repeated in Hx. apply bind_ok in Hx as ((L1 & sub) & H1 & H2).
    eapply (keeps_push L1 _ (L', i)); [exact (keeps_defs _ IH _ _ _ _ HL H1)|exact H2|apply other_step; intros ?; discriminate].
  - rewrite reg_primary_grouped in Hx. exact (keeps_defs _ IH _ _ _ _ HL Hx).
  - eapply (keeps_push L _ (L', i)); [exact HL|exact Hx|apply other_step; intros ?; discriminate].
  - eapply (keeps_push L _ (L', i)); [exact HL|exact Hx|apply other_step; intros ?; discriminate].
  - eapply (keeps_push L _ (L', i)); [exact HL|exact Hx|]. intros sc E. injection E as <-. exists s. reflexivity.
  - eapply (keeps_push L _ (L', i)); [exact HL|exact Hx|apply other_step; intros ?; discriminate].
Qed.
Lemma keeps_rules : forall sy rs g g', Forall special_of (g_instrs g) -> compile_rules cfg sy rs g = Ok g' -> Forall special_of (g_instrs g').
Proof.
  intros sy. induction rs as [|r rs IH]; intros g g' HL H; cbn [compile_rules] in H; [injection H as <-; exact HL|].
  destruct (canonical_name sy (r_id r)) as [name|]; [|discriminate]. apply bind_ok in H as ((L & idx) & H1 & H2).
  eapply IH; [|exact H2]. cbn [g_instrs]. apply Forall_app. split; [|constructor; [apply other_step; intros ?; discriminate|constructor]].
  eapply keeps_defs; [|exact HL|exact H1]. apply Forall_forall. intros ts _. apply Forall_forall. intros t _. split; [apply keeps_primary|].
  destruct (t_exc t); [apply keeps_primary|exact I].
Qed.
Lemma compile_specials : forall sy g, compile cfg sy = Ok g -> Forall special_of (g_instrs g).
Proof. intros sy g H. eapply keeps_rules; [|exact H]. constructor. Qed.
End Specials.

Section Failing.
(** The first text ends at [L] with the failure [e]; the second goes on with [u] and
    ends as [E2] says. *)
Variables (e : error) (L : location) (u : str) (E2 : option error).
Definition X : error := wrapped L e.
Definition along (s s' : pst) : Prop :=
  p_rest s' = p_rest s ++ u /\ p_at s' = p_at s /\ loc_push_str (p_at s) (p_rest s) = L.
Definition agree {A} (R : A -> A -> pst -> pst -> Prop) (x x' : res A * pst) : Prop :=
  fst x = Err X \/
  match x, x' with
  | (Ok a, t), (Ok a', t') => R a a' t t'
  | (Err x, _), (Err x', _) => x = x'
  | (Panic p, _), (Panic p', _) => p = p'
  | (OutOfFuel, _), (OutOfFuel, _) => True
  | _, _ => False
  end.
Definition sim {A} (R : A -> A -> pst -> pst -> Prop) (m m' : P A) : Prop := forall s s', along s s' -> agree R (m s) (m' s').
Definition same {A} (a a' : A) (t t' : pst) : Prop := a = a' /\ along t t'.
Lemma sim_ret : forall {A} (R : A -> A -> pst -> pst -> Prop) a a', (forall t t', along t t' -> R a a' t t') -> sim R (pret a) (pret a').
Proof. intros A R a a' H s s' K. right. cbn. auto. Qed.
Lemma sim_same : forall {A} (a : A), sim same (pret a) (pret a).
Proof. intros A a. apply sim_ret. intros t t' H. split; [reflexivity|exact H]. Qed.
Lemma sim_fail : forall {A} (R : A -> A -> pst -> pst -> Prop) x, sim R (pfail x) (pfail x).
Proof. intros A R x s s' K. right. reflexivity. Qed.
Lemma sim_fail_X : forall {A} (R : A -> A -> pst -> pst -> Prop) m, sim R (pfail X) m.
Proof. intros A R x s s' K. left. reflexivity. Qed.
Lemma sim_crash : forall {A} (R : A -> A -> pst -> pst -> Prop) x, sim R (pcrash x) (pcrash x).
Proof. intros A R x s s' K. right. reflexivity. Qed.
Lemma sim_no_fuel : forall {A} (R : A -> A -> pst -> pst -> Prop), sim R pno_fuel pno_fuel.
Proof. intros A R s s' K. right. exact I. Qed.
Lemma agree_bind : forall {A B} (Q : A -> A -> pst -> pst -> Prop) (R : B -> B -> pst -> pst -> Prop) m m' k k' s s', agree Q (m s) (m' s') ->
  (forall a a' t t', Q a a' t t' -> agree R (k a t) (k' a' t')) -> agree R (pbind m k s) (pbind m' k' s').
Proof.
  intros A B Q R m m' k k' s s' H1 H2. unfold pbind.
  destruct (m s) as ([a|x|x|] & t); destruct H1 as [H1|H1]; cbn [fst] in H1; try discriminate H1.
  all: try (injection H1 as ->; left; reflexivity).
  all: destruct (m' s') as ([a'|x'|x'|] & t'); try contradiction.
  - exact (H2 a a' t t' H1).
  - right. exact H1.
  - right. exact H1.
  - right. exact I.
Qed.
Lemma agree_bind_eq : forall {A B} (Q : A -> A -> pst -> pst -> Prop) (R : B -> B -> pst -> pst -> Prop) m m' k k' s s', agree Q (m s) (m' s') ->
  (forall a a' t t', m s = (Ok a, t) -> Q a a' t t' -> agree R (k a t) (k' a' t')) -> agree R (pbind m k s) (pbind m' k' s').
Proof.
  intros A B Q R m m' k k' s s' H1 H2. unfold pbind.
  destruct (m s) as ([a|x|x|] & t); destruct H1 as [H1|H1]; cbn [fst] in H1; try discriminate H1.
  all: try (injection H1 as ->; left; reflexivity).
  all: destruct (m' s') as ([a'|x'|x'|] & t'); try contradiction.
  - exact (H2 a a' t t' eq_refl H1).
  - right. exact H1.
  - right. exact H1.
  - right. exact I.
Qed.
Lemma sim_bind : forall {A B} (R : B -> B -> pst -> pst -> Prop) (m m' : P A) k k', sim same m m' ->
  (forall a, sim R (k a) (k' a)) -> sim R (pbind m k) (pbind m' k').
Proof.
  intros A B R m m' k k' H1 H2 s s' K. eapply agree_bind; [exact (H1 s s' K)|]. intros a a' t t' (<- & Ht). exact (H2 a t t' Ht).
Qed.
Lemma sim_get : forall {B} (R : B -> B -> pst -> pst -> Prop) k k', (forall s s', along s s' -> sim R (k s) (k' s')) -> sim R (pbind pget k) (pbind pget k').
Proof. intros B R k k' H s s' K. unfold pbind, pget. apply H; exact K. Qed.
Lemma sim_put : forall s s', along s s' -> sim same (pput s) (pput s').
Proof. intros s s' H t t' K. right. cbn. split; [reflexivity|exact H]. Qed.
(** ... from wherever. *)
Lemma put_from : forall {B} (R : B -> B -> pst -> pst -> Prop) s s' k k' t t', along s s' -> sim R (k tt) (k' tt) -> agree R (pbind (pput s) k t) (pbind (pput s') k' t').
Proof. intros B R s s' k k' t t' H K. unfold pbind, pput. apply K. exact H. Qed.
Lemma sim_loc : sim same ploc ploc.
Proof. intros s s' K. right. cbn. split; [symmetry; apply K|exact K]. Qed.
Lemma along_move : forall n s s', along s s' -> n <= length (p_rest s) -> along (move n s) (move n s').
Proof.
  intros n s s' (H1 & H2 & H3) Hn. unfold along, move. cbn [p_rest p_at]. rewrite H1, H2. split; [|split].
  - rewrite skipn_app. replace (n - length (p_rest s)) with 0 by lia. reflexivity.
  - rewrite firstn_app. replace (n - length (p_rest s)) with 0 by lia. cbn [firstn]. rewrite app_nil_r. reflexivity.
  - rewrite <- push_str_app, firstn_skipn. exact H3.
Qed.
(** Reading: the failure, or the same answer. *)
Definition simr {A} (m m' : P A) : Prop := forall s s', along s s' ->
  fst (m s) = Err X \/ exists a t t', m s = (Ok a, t) /\ m' s' = (Ok a, t') /\ along t t'.
Lemma simr_sim : forall {A} (m m' : P A), simr m m' -> sim same m m'.
Proof.
  intros A m m' H s s' K. destruct (H s s' K) as [E|(a & t & t' & H1 & H2 & H3)]; [left; exact E|right]. rewrite H1, H2. split; [reflexivity|exact H3].
Qed.
Lemma simr_ret : forall {A} (a : A), simr (pret a) (pret a).
Proof. intros A a s s' K. right. exists a, s, s'. auto. Qed.
Lemma simr_bind : forall {A B} (m m' : P A) (k k' : A -> P B), simr m m' -> (forall a, simr (k a) (k' a)) -> simr (pbind m k) (pbind m' k').
Proof.
  intros A B m m' k k' H1 H2 s s' K. destruct (H1 s s' K) as [E|(a & t & t' & M1 & M2 & M3)].
  - left. unfold pbind. destruct (m s) as (x & t). cbn in E. subst x. reflexivity.
  - rewrite (pbind_ok _ _ _ _ _ M1), (pbind_ok _ _ _ _ _ M2). exact (H2 a t t' M3).
Qed.
Lemma simr_read : simr (pread (Some e)) (pread E2).
Proof.
  intros s s' K. unfold pread. pose proof (along_move 1 s s' K) as M. destruct K as (H1 & H2 & H3). rewrite H1.
  destruct (p_rest s) as [|c r] eqn:E; [left|right].
  - cbn in *. unfold X. rewrite H3. reflexivity.
  - cbn [app]. eexists _, _, _. split; [reflexivity|]. split; [reflexivity|]. apply M. cbn. lia.
Qed.
Lemma simr_back : forall {A} (m m' : P A), simr m m' -> simr (back m) (back m').
Proof.
  intros A m m' H s s' K. unfold back. destruct (H s s' K) as [E|(a & t & t' & M1 & M2 & M3)].
  - left. destruct (m s) as (x & t). cbn in E. subst x. reflexivity.
  - right. rewrite M1, M2. exists a, s, s'. auto.
Qed.
Lemma simr_eof : simr (peof (Some e)) (peof E2).
Proof.
  intros s s' K. unfold peof. destruct (simr_read s s' K) as [E|(a & t & t' & M1 & M2 & M3)].
  - left. destruct (pread (Some e) s) as (x & t). cbn in E. subst x. reflexivity.
  - right. rewrite M1, M2. eexists _, s, s'. auto.
Qed.
Lemma simr_prefix_loop : forall w, simr (pprefix_loop (Some e) w) (pprefix_loop E2 w).
Proof.
  induction w as [|a w IH]; cbn [pprefix_loop]; [apply simr_ret|]. apply simr_bind; [apply simr_read|]. intros [c|]; [|apply simr_ret].
  destruct (N.eqb c a); [exact IH|apply simr_ret].
Qed.
Lemma simr_peek_loop : forall n, simr (ppeek_loop (Some e) n) (ppeek_loop E2 n).
Proof.
  induction n as [|n IH]; cbn [ppeek_loop]; [apply simr_ret|]. apply simr_bind; [apply simr_read|]. intros [c|]; [|apply simr_ret].
  apply simr_bind; [exact IH|]. intros r. apply simr_ret.
Qed.
Lemma simr_stream_prefix : simr (pstream_prefix (Some e)) (pstream_prefix E2).
Proof.
  unfold pstream_prefix. apply simr_bind; [apply simr_eof|]. intros [|]; [apply simr_ret|].
  apply simr_bind; [apply simr_back, simr_peek_loop|]. intros p. apply simr_ret.
Qed.

(** Errors: the failure itself, or the same error, before the end. *)
Definition Re (a b : error) : Prop := a = X \/ (a = b /\ loc_cmp (e_loc a) L = Lt).
Lemma stream_prefix_res : forall E s, (exists a t, pstream_prefix E s = (Ok a, t)) \/ exists x t, pstream_prefix E s = (Err x, t).
Proof.
  intros E s. assert (Hr : forall s, (exists a t, pread E s = (Ok a, t)) \/ exists x t, pread E s = (Err x, t)).
  { intros q. unfold pread. destruct (p_rest q); [destruct E|]; eauto. }
  assert (Hp : forall n s, (exists a t, ppeek_loop E n s = (Ok a, t)) \/ exists x t, ppeek_loop E n s = (Err x, t)).
  { induction n as [|n IH]; intros q; cbn [ppeek_loop]; [left; eexists _, _; reflexivity|].
    destruct (Hr q) as [(a & t & K)|(x & t & K)].
    - rewrite (pbind_ok _ _ _ _ _ K). destruct a as [c|]; [|left; eexists _, _; reflexivity].
      destruct (IH t) as [(a & t' & K')|(x & t' & K')]; [rewrite (pbind_ok _ _ _ _ _ K'); left; eexists _, _; reflexivity|].
      rewrite (pbind_err _ _ _ _ _ K'). right. eauto.
    - rewrite (pbind_err _ _ _ _ _ K). right. eauto. }
  unfold pstream_prefix. destruct (Hr s) as [(a & t & K)|(x & t & K)].
  - assert (K2 : exists b, peof E s = (Ok b, s)) by (unfold peof; rewrite K; eauto). destruct K2 as (b & K2).
    rewrite (pbind_ok _ _ _ _ _ K2). destruct b; [left; eexists _, _; reflexivity|].
    destruct (Hp 9 s) as [(a' & t' & K')|(x & t' & K')].
    + assert (K3 : ppeek E 9 s = (Ok a', s)) by (unfold ppeek, back; rewrite K'; reflexivity).
      rewrite (pbind_ok _ _ _ _ _ K3). left. eexists _, _. reflexivity.
    + assert (K3 : ppeek E 9 s = (Err x, t')) by (unfold ppeek, back; rewrite K'; reflexivity).
      rewrite (pbind_err _ _ _ _ _ K3). right. eauto.
  - assert (K2 : peof E s = (Err x, t)) by (unfold peof; rewrite K; reflexivity). rewrite (pbind_err _ _ _ _ _ K2). right. eauto.
Qed.
Lemma perr_ok : forall E g i s, exists x s', perr_expected E g i s = (Ok x, s').
Proof.
  intros E g i s. unfold perr_expected. rewrite (pbind_ok ploc _ s (p_at s) s eq_refl). cbv beta zeta.
  destruct (stream_prefix_res E s) as [(a & t & H)|(x & t & H)]; rewrite H; eexists _, _; reflexivity.
Qed.
Lemma at_L : forall s s', along s s' -> p_at s = L -> p_rest s = [].
Proof.
  intros s s' (_ & _ & H) E. destruct (p_rest s) as [|c r] eqn:Er; [reflexivity|]. exfalso.
  pose proof (loc_cmp_push (c :: r) (p_at s)) as K. rewrite H, E in K. rewrite (proj2 (loc_cmp_eq L L) eq_refl) in K. discriminate (K ltac:(discriminate)).
Qed.
Lemma before_L : forall s s', along s s' -> p_rest s <> [] -> loc_cmp (p_at s) L = Lt.
Proof. intros s s' (_ & _ & H) Hne. rewrite <- H. apply loc_cmp_push. exact Hne. Qed.
Lemma sim_expected : forall g i, sim (fun a b _ _ => Re a b) (perr_expected (Some e) g i) (perr_expected E2 g i).
Proof.
  intros g i s s' K. unfold perr_expected. rewrite (pbind_ok ploc _ s (p_at s) s eq_refl). rewrite (pbind_ok ploc _ s' (p_at s') s' eq_refl). cbv beta zeta.
  right. destruct (simr_stream_prefix s s' K) as [E|(a & t & t' & M1 & M2 & M3)].
  - destruct (pstream_prefix (Some e) s) as (x & t). cbn in E. subst x.
    destruct (stream_prefix_res E2 s') as [(a & t2 & H2)|(x & t2 & H2)]; rewrite H2; left; reflexivity.
  - rewrite M1, M2. right. rewrite (proj1 (proj2 K)). split; [reflexivity|]. cbn. eapply before_L; [exact K|]. intros Hn.
    unfold pstream_prefix, pbind, peof, pread in M1. rewrite Hn in M1. discriminate.
Qed.
(** At the end it is the failure. *)
Lemma expected_end : forall g i s s', along s s' -> p_at s = L -> exists t, perr_expected (Some e) g i s = (Ok X, t).
Proof.
  intros g i s s' K HL. pose proof (at_L _ _ K HL) as Hn. unfold perr_expected. rewrite (pbind_ok ploc _ s (p_at s) s eq_refl). cbv beta zeta.
  unfold pstream_prefix, pbind, peof, pread. rewrite Hn. unfold X. rewrite <- HL. eexists. reflexivity.
Qed.
Lemma pick_same : forall es es', Forall2 Re es es' -> In X es \/ es = es'.
Proof.
  intros es es' H. induction H as [|a b es es' [-> |(E & _)] H IH]; [right; reflexivity|left; left; reflexivity|].
  subst b. destruct IH as [IH| ->]; [left; right; exact IH|right; reflexivity].
Qed.
Lemma Re_le : forall a b, Re a b -> a = X \/ loc_cmp (e_loc a) L = Lt.
Proof. intros a b [H|(_ & H)]; auto. Qed.
Lemma pick_X : forall es, Forall (fun a => a = X \/ loc_cmp (e_loc a) L = Lt) es -> In X es -> pick_error es = Some X.
Proof.
  assert (HX : forall a, a = X \/ loc_cmp (e_loc a) L = Lt -> loc_ltb L (e_loc a) = false).
  { intros a [-> |H]; destruct (loc_ltb L _) eqn:E; try reflexivity; apply loc_ltb_cmp in E.
    - cbn in E. rewrite (proj2 (loc_cmp_eq L L) eq_refl) in E. discriminate.
    - rewrite loc_cmp_antisym, H in E. discriminate. }
  assert (G1 : forall es, Forall (fun a => a = X \/ loc_cmp (e_loc a) L = Lt) es ->
     fold_left (fun err other => if loc_ltb (e_loc err) (e_loc other) then other else err) es X = X).
  { induction es as [|a es IH]; intros HF; [reflexivity|]. cbn [fold_left]. change (e_loc X) with L. rewrite (HX a (Forall_inv HF)). apply IH. exact (Forall_inv_tail HF). }
  assert (G2 : forall es a, Forall (fun a => a = X \/ loc_cmp (e_loc a) L = Lt) (a :: es) -> In X (a :: es) ->
     fold_left (fun err other => if loc_ltb (e_loc err) (e_loc other) then other else err) es a = X).
  { induction es as [|b es IH]; intros a HF Hin.
    - destruct Hin as [-> |[]]. reflexivity.
    - destruct Hin as [-> |Hin]; [apply G1; exact (Forall_inv_tail HF)|].
      pose proof (Forall_inv HF) as Ha. pose proof (Forall_inv_tail HF) as HF'. cbn [fold_left].
      destruct Ha as [-> |Ha].
      + change (e_loc X) with L. rewrite (HX b (Forall_inv HF')). apply G1. exact (Forall_inv_tail HF').
      + destruct Hin as [-> |Hin].
        * change (e_loc X) with L. rewrite (proj2 (loc_ltb_cmp _ _) Ha). apply G1. exact (Forall_inv_tail HF').
        * destruct (loc_ltb (e_loc a) (e_loc b)); apply IH.
          -- exact HF'.
          -- right. exact Hin.
          -- constructor; [right; exact Ha|exact (Forall_inv_tail HF')].
          -- right. exact Hin. }
  intros [|a es] HF Hin; [destruct Hin|]. unfold pick_error. f_equal. apply G2; assumption.
Qed.
Lemma pick_in : forall es err, pick_error es = Some err -> In err es.
Proof.
  intros [|a es] err H; [discriminate|]. injection H as <-. revert a. induction es as [|b es IH]; intros a; [left; reflexivity|]. cbn [fold_left].
  destruct (loc_ltb (e_loc a) (e_loc b)); [right; apply IH|]. destruct (IH a) as [H|H]; [left; exact H|right; right; exact H].
Qed.

(** ** Scanners *)
Lemma Forall2_skipn : forall {A B} (R : A -> B -> Prop) i l l', Forall2 R l l' -> Forall2 R (skipn i l) (skipn i l').
Proof. intros A B R i. induction i as [|i IH]; intros l l' H; [exact H|]. destruct H; cbn; [constructor|apply IH; assumption]. Qed.
Lemma sim_sprog_own : forall p own own', Forall2 along own own' -> sim same (prun_sprog (Some e) p own) (prun_sprog E2 p own').
Proof.
  induction p as [r|x|k IH|k IH|k IH|w k IH|n k IH|n k IH|k IH|i k IH|i k IH]; intros own own' Ho; cbn [prun_sprog]; [apply sim_same|apply sim_fail|..].
  - apply sim_bind; [apply simr_sim, simr_read|]. intros a. apply IH. exact Ho.
  - apply sim_bind; [apply sim_loc|]. intros a. apply IH. exact Ho.
  - apply sim_bind; [apply simr_sim, simr_eof|]. intros a. apply IH. exact Ho.
  - apply sim_bind; [apply simr_sim, simr_back, simr_prefix_loop|]. intros a. apply IH. exact Ho.
  - apply sim_bind; [apply simr_sim, simr_back, simr_peek_loop|]. intros a. apply IH. exact Ho.
  - apply sim_bind; [|intros a; apply IH; exact Ho]. apply simr_sim. unfold pskip_any. apply simr_bind; [apply simr_peek_loop|]. intros a. apply simr_ret.
  - apply sim_get. intros s s' K. apply IH. constructor; assumption.
  - destruct (Forall2_skipn _ i _ _ Ho) as [|t t' older older' Kt Kold]; [apply IH; exact Ho|].
    apply sim_get. intros s s' K. apply sim_bind; [apply sim_put; exact Kt|]. intros _.
    replace (length (p_rest t') - length (p_rest s')) with (length (p_rest t) - length (p_rest s)).
    { apply IH. exact Kold. }
    destruct Kt as (-> & _), K as (-> & _). rewrite !app_length. lia.
  - destruct (Forall2_skipn _ i _ _ Ho) as [|t t' older older' Kt Kold]; apply IH; assumption.
Qed.
Lemma sim_sprog : forall p, sim same (prun_sprog (Some e) p []) (prun_sprog E2 p []).
Proof. intros p. apply sim_sprog_own. constructor. Qed.
Lemma sim_chars_loop : forall fuel pred max n, sim same (pchars_loop (Some e) fuel pred max n) (pchars_loop E2 fuel pred max n).
Proof.
  induction fuel as [|f IH]; intros pred max n; cbn [pchars_loop]; [apply sim_no_fuel|].
  destruct (match max with Some m => _ | None => _ end); [|apply sim_same].
  apply sim_get. intros s s' K. apply sim_bind; [apply simr_sim, simr_read|]. intros [c|]; [|apply sim_same].
  destruct (negb (pred c)).
  - apply sim_bind; [apply sim_put; exact K|]. intros _. apply sim_same.
  - apply sim_bind; [apply IH|]. intros r. apply sim_same.
Qed.
Lemma sim_scan : forall fuel sc def, sim same (pspecial_scan (Some e) fuel sc def) (pspecial_scan E2 fuel sc def).
Proof.
  intros fuel [c|pred mn mx|re find|sym prog] def; cbn [pspecial_scan].
  - apply sim_same.
  - unfold pchars_scan. apply sim_get. intros s s' K. apply sim_bind; [apply sim_loc|]. intros l. apply sim_bind; [apply sim_chars_loop|]. intros buffer.
    destruct (match mn with Some m => _ | None => _ end); [|apply sim_same].
    apply sim_bind; [apply sim_put; exact K|]. intros _. apply sim_same.
  - unfold pregex_scan. apply sim_bind; [apply sim_loc|]. intros l s s' K.
    destruct (simr_back _ _ (simr_peek_loop (S regex_max)) s s' K) as [E|(a & t & t' & M1 & M2 & M3)].
    + left. unfold pbind. unfold ppeek. destruct (back (ppeek_loop (Some e) (S regex_max)) s) as (x & t). cbn in E. subst x. reflexivity.
    + destruct (ppeek_ok (Some e) _ _ _ _ M1) as (-> & ->).
      change (back (ppeek_loop (Some e) (S regex_max))) with (ppeek (Some e) (S regex_max)) in M1. change (back (ppeek_loop E2 (S regex_max))) with (ppeek E2 (S regex_max)) in M2.
      rewrite (pbind_ok _ _ _ _ _ M1), (pbind_ok _ _ _ _ _ M2). destruct (find _) as [([|x] & len)|]; [|right; cbn; split; [reflexivity|exact M3]|right; cbn; split; [reflexivity|exact M3]].
      cbv zeta. destruct (Nat.ltb regex_max _).
      * assert (G : sim same (letp l0 := ploc in @pfail reaction (Error_ l0 MRegexTooLong)) (letp l0 := ploc in pfail (Error_ l0 MRegexTooLong))) by (apply sim_bind; [apply sim_loc|]; intros; apply sim_fail).
        exact (G _ _ M3).
      * right. unfold pbind, pskip. split; [reflexivity|]. apply along_move; [exact M3|].
        rewrite !firstn_length. lia.
  - apply sim_sprog.
Qed.
(** ** The machine *)
Definition Rp (a b : prospect * list event) (t t' : pst) : Prop :=
  match fst a, fst b with
  | Proceed, Proceed => snd a = snd b /\ along t t'
  | NotThisWay x, NotThisWay y => snd a = snd b /\ Re x y
  | _, _ => False
  end.
Lemma sim_expected_no : forall g i evs, sim Rp (letp x := perr_expected (Some e) g i in pret (NotThisWay x, evs)) (letp x := perr_expected E2 g i in pret (NotThisWay x, evs)).
Proof.
  intros g i evs s s' K. eapply agree_bind; [exact (sim_expected g i s s' K)|]. cbv beta. intros a b t t' H. right. cbn. split; [reflexivity|exact H].
Qed.
Lemma sim_rep : forall sub sub' fuel mn mx i temp, (forall evs, sim Rp (sub evs) (sub' evs)) ->
  sim (fun a b t t' => match a, b with inl x, inl y => Re x y | inr p, inr q => p = q /\ along t t' | _, _ => False end)
    (prep_loop sub fuel mn mx i temp) (prep_loop sub' fuel mn mx i temp).
Proof.
  intros sub sub' fuel mn mx i temp Hs. revert i temp. induction fuel as [|f IH]; intros i temp; cbn [prep_loop]; [apply sim_no_fuel|].
  destruct (N.ltb i mx); [|apply sim_ret; auto]. apply sim_get. intros s s' K t t' Kt.
  eapply agree_bind; [exact (Hs temp t t' Kt)|]. intros (p & x) (q & y) t2 t2' H. unfold Rp in H. cbn [fst snd] in H.
  destruct p as [|e1]; destruct q as [|e2]; try contradiction; destruct H as (<- & H).
  - rewrite (proj1 (proj2 K)).
    assert (G : sim (fun a b t t' => match a, b with inl x, inl y => Re x y | inr p, inr q => p = q /\ along t t' | _, _ => False end)
      (letp loc' := ploc in if (N.eqb mx u32_max && loc_eqb loc' (p_at s))%bool then pfail (Error_ (p_at s) MLivelock) else prep_loop sub f mn mx (i + 1)%N x)
      (letp loc' := ploc in if (N.eqb mx u32_max && loc_eqb loc' (p_at s))%bool then pfail (Error_ (p_at s) MLivelock) else prep_loop sub' f mn mx (i + 1)%N x)).
    { apply sim_bind; [apply sim_loc|]. intros l. destruct (N.eqb mx u32_max && loc_eqb l (p_at s))%bool; [apply sim_fail|apply IH]. }
    exact (G t2 t2' H).
  - destruct (N.ltb i mn); [right; exact H|]. apply put_from; [exact K|]. apply sim_ret. auto.
Qed.
Lemma sim_or : forall sub sub' subs, (forall a, sim Rp (sub a) (sub' a)) ->
  sim (fun a b t t' => match a, b with inl x, inl y => Forall2 Re x y /\ along t t' | inr p, inr q => p = q /\ along t t' | _, _ => False end)
    (por_loop sub subs) (por_loop sub' subs).
Proof.
  intros sub sub' subs Hs. induction subs as [|a subs IH]; cbn [por_loop]; [apply sim_ret; auto|].
  apply sim_get. intros s s' K t t' Kt. eapply agree_bind; [exact (Hs a t t' Kt)|]. intros (p & x) (q & y) t2 t2' H. unfold Rp in H. cbn [fst snd] in H.
  destruct p as [|e1]; destruct q as [|e2]; try contradiction; destruct H as (<- & H).
  - right. cbn. auto.
  - apply put_from; [exact K|]. intros r r' Kr. eapply agree_bind; [exact (IH r r' Kr)|].
    intros [es|te] [es'|te'] t3 t3' H3; try contradiction; destruct H3 as (H3 & H4); right; cbn.
    + split; [constructor; assumption|exact H4].
    + subst. auto.
Qed.
Lemma prefix_long : forall E w s s', pprefix_loop E w s = (Ok true, s') -> length w <= length (p_rest s).
Proof.
  intros E. induction w as [|a w IH]; intros s s' H; cbn [length]; [lia|]. cbn [pprefix_loop] in H. unfold pbind, pread in H.
  destruct (p_rest s) as [|c r] eqn:Er; [destruct E; discriminate|]. destruct (N.eqb c a); [|discriminate].
  apply IH in H. unfold move in H. rewrite Er in H. cbn in *. lia.
Qed.
Lemma sim_terminal : forall g addr ins w evs, sim Rp (pterminal_step g (Some e) addr ins w evs) (pterminal_step g E2 addr ins w evs).
Proof.
  intros g addr ins w evs s s' K. unfold pterminal_step.
  destruct (simr_back _ _ (simr_prefix_loop w) s s' K) as [E|(a & t & t' & M1 & M2 & M3)].
  - left. unfold pbind, pprefix. destruct (back (pprefix_loop (Some e) w) s) as (x & t). cbn in E. subst x. reflexivity.
  - assert (Hs : t = s). { unfold back in M1. destruct (pprefix_loop (Some e) w s) as ([]&?); congruence. }
    assert (Hw : a = true -> length w <= length (p_rest t)).
    { intros ->. subst t. unfold back in M1. destruct (pprefix_loop (Some e) w s) as ([b| | |] & q) eqn:Eq; try discriminate. injection M1 as ->. exact (prefix_long _ _ _ _ Eq). }
    change (back (pprefix_loop (Some e) w)) with (pprefix (Some e) w) in M1. change (back (pprefix_loop E2 w)) with (pprefix E2 w) in M2.
    rewrite (pbind_ok _ _ _ _ _ M1), (pbind_ok _ _ _ _ _ M2). destruct a.
    + rewrite (pbind_ok ploc _ t (p_at t) t eq_refl). rewrite (pbind_ok ploc _ t' (p_at t') t' eq_refl). right. unfold pbind, pskip, pret, Rp. cbn [fst snd].
      rewrite (proj1 (proj2 M3)). split; [reflexivity|]. apply along_move; [exact M3|]. auto.
    + apply sim_expected_no. exact M3.
Qed.
Section Graph.
Variable g : graph.
Hypothesis Hst : forall ins sc, In ins (g_instrs g) -> i_step ins = StSpecial sc ->
  forall fuel s id s', pspecial_scan (Some e) fuel sc (i_def ins) s <> (Ok (RForward id), s').
Lemma sim_special : forall sub sub' fuel addr ins sc evs, In ins (g_instrs g) -> i_step ins = StSpecial sc ->
  sim Rp (pspecial_step g sub (Some e) fuel addr ins sc evs) (pspecial_step g sub' E2 fuel addr ins sc evs).
Proof.
  intros sub sub' fuel addr ins sc evs Hin Hsc. unfold pspecial_step. apply sim_get. intros s s' K t t' Kt.
  eapply agree_bind_eq; [exact (sim_scan fuel sc (i_def ins) t t' Kt)|]. intros rc rc' t2 t2' Hno (<- & H). destruct rc as [evts| |id].
  - right. split; [reflexivity|exact H].
  - apply put_from; [exact K|]. apply sim_expected_no.
  - exfalso. exact (Hst ins sc Hin Hsc _ _ _ _ Hno).
Qed.
Lemma between_along : forall s s' t t', along s s' -> along t t' -> length (p_rest t) <= length (p_rest s) -> between s t = between s' t'.
Proof.
  intros s s' t t' (A1 & _) (B1 & _) Hl. unfold between. rewrite A1, B1, !app_length, firstn_app.
  replace (length (p_rest s) + length u - (length (p_rest t) + length u)) with (length (p_rest s) - length (p_rest t)) by lia.
  replace (length (p_rest s) - length (p_rest t) - length (p_rest s)) with 0 by lia. cbn [firstn]. rewrite app_nil_r. reflexivity.
Qed.
Lemma sim_except : forall (sub : option error -> nat -> list event -> P (prospect * list event)) fuel addr factor exc evs,
  (forall a x, sim Rp (sub (Some e) a x) (sub E2 a x)) -> (forall E a x s0, fwd s0 (sub E a x)) ->
  sim Rp (pexcept_scan g sub (Some e) fuel addr factor exc evs) (pexcept_scan g sub E2 fuel addr factor exc evs).
Proof.
  intros sub fuel addr factor exc evs Hs Hf s s' K. unfold pexcept_scan. rewrite (pbind_ok pget _ s s s eq_refl), (pbind_ok pget _ s' s' s' eq_refl).
  eapply agree_bind_eq; [exact (Hs factor [] s s' K)|]. intros (p & temp) (p' & temp') t t' Hm H.
  assert (Hm' : moved s t). { pose proof (Hf (Some e) factor [] s s (moved_refl s)) as M. rewrite Hm in M. exact M. }
  unfold Rp in H. cbn [fst snd] in H. destruct p as [|e1]; destruct p' as [|e2]; try contradiction; destruct H as (<- & H).
  - rewrite (pbind_ok pget _ t t t eq_refl), (pbind_ok pget _ t' t' t' eq_refl). cbv zeta.
    assert (Hb : between s t = between s' t'). { apply between_along; auto. destruct Hm' as (w & M & _). rewrite M, app_length. lia. }
    rewrite <- Hb, (proj1 (proj2 K)). destruct (Nat.ltb (length (between s t)) fuel).
    + match goal with |- agree _ (match fst ?x with _ => _ end _) _ => destruct (fst x) as [[|]|y|y|] end.
      * apply put_from; [exact K|]. apply sim_expected_no.
      * right. split; [reflexivity|exact H].
      * right. reflexivity.
      * right. reflexivity.
      * right. exact I.
    + right. exact I.
  - apply put_from; [exact K|]. apply sim_ret. intros r r' Kr. split; [reflexivity|exact H].
Qed.
Theorem sim_run : forall fuel next evs, sim Rp (prun g fuel (Some e) next evs) (prun g fuel E2 next evs).
Proof.
  induction fuel as [|f IH]; intros next evs; cbn [prun]; [apply sim_no_fuel|].
  destruct next as [addr|]; [|apply sim_ret; intros t t' H; split; [reflexivity|exact H]].
  destruct (nth_error (g_instrs g) addr) as [ins|] eqn:Ei; [|apply sim_crash].
  assert (Hc : forall (m m' : P (prospect * list event)), sim Rp m m' ->
    sim Rp (letp pe := m in let '(p, evs) := pe in match p with NotThisWay e => pret (NotThisWay e, evs) | Proceed => prun g f (Some e) (i_next ins) evs end)
           (letp pe := m' in let '(p, evs) := pe in match p with NotThisWay e => pret (NotThisWay e, evs) | Proceed => prun g f E2 (i_next ins) evs end)).
  { intros m m' H s s' K. eapply agree_bind; [exact (H s s' K)|]. intros (p & x) (q & y) t t' HR. unfold Rp in HR. cbn [fst snd] in HR.
    destruct p as [|e1]; destruct q as [|e2]; try contradiction; destruct HR as (<- & HR); [apply IH; exact HR|]. right. split; [reflexivity|exact HR]. }
  destruct (i_step ins) as [min max sb|subs|w|sc| |fa ex|id] eqn:Es.
  - intros s s' K. eapply agree_bind; [apply (sim_rep (prun g f (Some e) (Some sb)) (prun g f E2 (Some sb)) f min max 0%N [] (IH (Some sb)) s s' K)|].
    cbv beta. intros [x|x] [y|y] t t' H; try contradiction.
    + right. split; [reflexivity|exact H].
    + destruct H as (<- & H). apply IH. exact H.
  - intros s s' K. eapply agree_bind; [apply (sim_or (fun a => prun g f (Some e) (Some a) []) (fun a => prun g f E2 (Some a) []) subs (fun a => IH (Some a) []) s s' K)|].
    cbv beta. intros [x|x] [y|y] t t' H; try contradiction.
    + destruct H as (HF & Ht). destruct (pick_same _ _ HF) as [HX|E].
      * assert (P1 : pick_error (rev x) = Some X).
        { apply pick_X; [|apply -> in_rev; exact HX]. apply Forall_rev. clear - HF. induction HF; constructor; eauto using Re_le. }
        rewrite P1. destruct (pick_error (rev y)) as [err|] eqn:P2.
        2:{ exfalso. destruct HF; [destruct HX|]. cbn in P2. destruct (rev l'); discriminate. }
        rewrite (pbind_ok ploc _ t (p_at t) t eq_refl), (pbind_ok ploc _ t' (p_at t') t' eq_refl).
        assert (G1 : exists q, (if loc_eqb (e_loc X) (p_at t) then letp e0 := perr_expected (Some e) g (Some addr) in pret (NotThisWay e0, evs) else pret (NotThisWay X, evs)) t
           = (Ok (NotThisWay X, evs), q)).
        { destruct (loc_eqb (e_loc X) (p_at t)) eqn:El; [|eexists; reflexivity]. apply loc_eqb_eq in El. cbn in El.
          destruct (expected_end g (Some addr) t t' Ht (eq_sym El)) as (q & Hq). rewrite (pbind_ok _ _ _ _ _ Hq). eexists. reflexivity. }
        assert (G2 : exists z q, (if loc_eqb (e_loc err) (p_at t') then letp e0 := perr_expected E2 g (Some addr) in pret (NotThisWay e0, evs) else pret (NotThisWay err, evs)) t'
           = (Ok (NotThisWay z, evs), q)).
        { destruct (loc_eqb (e_loc err) (p_at t')); [|eexists _, _; reflexivity].
          destruct (perr_ok E2 g (Some addr) t') as (z & q & Hq). rewrite (pbind_ok _ _ _ _ _ Hq). eexists _, _. reflexivity. }
        destruct G1 as (q1 & ->). destruct G2 as (z & q2 & ->). right. split; [reflexivity|left; reflexivity].
      * subst y. destruct (pick_error (rev x)) as [err|] eqn:P2; [|right; reflexivity].
        rewrite (pbind_ok ploc _ t (p_at t) t eq_refl), (pbind_ok ploc _ t' (p_at t') t' eq_refl). rewrite (proj1 (proj2 Ht)).
        destruct (loc_eqb (e_loc err) (p_at t)); [apply sim_expected_no; exact Ht|]. right. split; [reflexivity|].
        assert (Hin : In err (rev x)) by (apply pick_in; exact P2).
        apply in_rev in Hin. clear - HF Hin. revert Hin. assert (G : forall a b, Forall2 Re a b -> forall z, In z a -> z = X \/ loc_cmp (e_loc z) L = Lt).
        { intros a b H. induction H as [|? ? ? ? HR H IH]; intros z Hz; [destruct Hz|destruct Hz as [<-|Hz]; eauto using Re_le]. }
        intros Hin. destruct (G _ _ HF _ Hin) as [-> |Hlt]; [left; reflexivity|right; auto].
    + destruct H as (<- & H). apply IH. exact H.
  - apply Hc, sim_terminal.
  - apply Hc. apply sim_special; [eapply nth_error_In; exact Ei|exact Es].
  - apply IH.
  - apply Hc. apply sim_except; [intros a x; apply IH|intros E a x s0; apply fwd_run].
  - destruct (g_label g id) as [address|]; [|apply sim_crash]. destruct (g_canonical g id) as [name|]; [|apply sim_crash].
    apply sim_bind; [apply sim_loc|]. intros l s s' K. eapply agree_bind; [exact (IH (Some address) _ s s' K)|].
    intros (p & x) (q & y) t t' HR. unfold Rp in HR. cbn [fst snd] in HR.
    destruct p as [|e1]; destruct q as [|e2]; try contradiction; destruct HR as (<- & HR).
    + rewrite (pbind_ok ploc _ t (p_at t) t eq_refl), (pbind_ok ploc _ t' (p_at t') t' eq_refl). rewrite (proj1 (proj2 HR)). apply IH. exact HR.
    + right. split; [reflexivity|exact HR].
Qed.
Lemma sim_parse : forall debug fuel entry, sim (fun _ _ _ _ => False) (pmachine_parse g debug fuel (Some e) entry) (pmachine_parse g debug fuel E2 entry).
Proof.
  intros debug fuel entry s s' K. unfold pmachine_parse. eapply agree_bind; [exact (sim_run fuel (Some entry) [] s s' K)|].
  intros (p & x) (q & y) t t' HR. unfold Rp in HR. cbn [fst snd] in HR.
  destruct p as [|e1]; destruct q as [|e2]; try contradiction; destruct HR as (<- & HR).
  - destruct (simr_eof t t' HR) as [E|(b & t2 & t2' & M1 & M2 & M3)].
    + left. unfold pbind. destruct (peof (Some e) t) as (z & r). cbn in E. subst z. reflexivity.
    + rewrite (pbind_ok _ _ _ _ _ M1), (pbind_ok _ _ _ _ _ M2). destruct b.
      * exfalso. unfold peof, pread in M1. destruct (p_rest t); discriminate.
      * eapply agree_bind; [exact (sim_expected g None t2 t2' M3)|]. cbv beta. intros a b r r' [-> |(-> & _)]; [left|right]; reflexivity.
  - destruct HR as [-> |(-> & _)]; [left|right]; reflexivity.
Qed.
End Graph.
End Failing.

(** ** The parser *)
(** No forwarding on a complete text, hence none on a failing one. *)
Lemma stays : forall cfg, no_forwarding cfg -> forall e fuel l c s id s', pspecial_scan (Some e) fuel (cfg l c) l s <> (Ok (RForward id), s').
Proof.
  intros cfg Hn e fuel l c s id s' H.
  pose proof (sim_scan e (loc_push_str (p_at s) (p_rest s)) [] None fuel (cfg l c) l s s) as K. rewrite H in K.
  destruct K as [K|K]; [split; [rewrite app_nil_r; reflexivity|split; reflexivity]|discriminate|].
  pose proof (scan_none fuel (cfg l c) l s) as Z. destruct (pspecial_scan None fuel (cfg l c) l s) as ([rc|x|x|] & t); try contradiction.
  destruct K as (<- & K). destruct Z as [(Z & _)|(r & Z1 & Z2)]; [discriminate|]. destruct r; cbn in Z2; try discriminate.
  - eapply Hn. exact Z1.
Qed.
(** Two readers: the second has the text of the first and more. *)
Lemma parse_failing : forall rs cfg g id m debug fuel rd rd' e l, parser_for rs cfg g id m -> no_forwarding cfg ->
  reader rd -> ending_of rd = Some e -> reader rd' -> continued_by rd rd' -> reaches (p_at (stand rd)) (unread rd) l ->
  fst (parser_parse debug g fuel m rd) = Err (Error_ l (MWrapped (e_loc e) (e_msg e))) \/
  (fst (parser_parse debug g fuel m rd) = fst (parser_parse debug g fuel m rd') /\ forall evs, fst (parser_parse debug g fuel m rd) <> Ok evs).
Proof.
  intros rs cfg g id m debug fuel rd rd' e l Hp Hn Hr He Hr' (u & Hu) Hl.
  destruct (parse_reader debug g fuel m rd Hr) as (A & _). destruct (parse_reader debug g fuel m rd' Hr') as (B & _). rewrite A, B, He.
  assert (HL : loc_push_str (p_at (stand rd)) (p_rest (stand rd)) = l) by (eapply reaches_unique; [apply push_str_reaches|exact Hl]).
  assert (Hst : forall ins sc, In ins (g_instrs g) -> i_step ins = StSpecial sc ->
    forall fuel s id s', pspecial_scan (Some e) fuel sc (i_def ins) s <> (Ok (RForward id), s')).
  { intros ins sc Hin Hsc fl s id' s'. destruct Hp as ((sy & _ & Hc) & _). pose proof (compile_specials cfg sy g Hc) as HS. rewrite Forall_forall in HS.
    destruct (HS ins Hin sc Hsc) as (c & ->). apply stays. exact Hn. }
  pose proof (sim_parse e l u (ending_of rd') g Hst debug fuel (mc_entry m) (stand rd) (stand rd')) as K.
  destruct K as [K|K].
  - split; [rewrite Hu; reflexivity|]. split; [rewrite Hu; reflexivity|exact HL].
  - left. exact K.
  - right. destruct (pmachine_parse g debug fuel (Some e) (mc_entry m) (stand rd)) as ([x|x|x|] & t);
      destruct (pmachine_parse g debug fuel (ending_of rd') (mc_entry m) (stand rd')) as ([y|y|y|] & t'); try contradiction; subst; split; try reflexivity; discriminate.
Qed.
