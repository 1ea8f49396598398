(** A parse with a closed syntax never panics. *)
From Coq Require Import String List NArith Arith Bool Lia.
From Verif Require Import Base Ident Tokenizer Ast Lex Syntax Io Graph Machine SpecText SpecSyntax SpecTree SpecIo TextFacts TreeFacts SyntaxFacts IoFacts SpecParse SpecMachine SpecEvents Pure PureFacts ParseFacts CodeFacts RunFacts EvFacts MachineFacts EventFacts.
Import ListNotations.
Open Scope nat_scope.

Definition calm {A} (m : P A) : Prop := forall s p, fst (m s) <> Panic p.
Lemma calm_ret : forall {A} (a : A), calm (pret a).
Proof. intros A a s p. discriminate. Qed.
Lemma calm_fail : forall {A} e, calm (@pfail A e).
Proof. intros A a s p. discriminate. Qed.
Lemma calm_fuel : forall {A}, calm (@pno_fuel A).
Proof. intros A s p. discriminate. Qed.
Lemma calm_bind : forall {A B} (m : P A) (k : A -> P B), calm m -> (forall a, calm (k a)) -> calm (pbind m k).
Proof.
  intros A B m k Hm Hk s p. specialize (Hm s). unfold pbind. destruct (m s) as ([a|e|q|] & s'); try discriminate; [apply Hk|]. intros _. exact (Hm q eq_refl).
Qed.
Lemma calm_get : calm pget. Proof. intros s p. discriminate. Qed.
Lemma calm_put : forall s0, calm (pput s0). Proof. intros s0 s p. discriminate. Qed.
Lemma calm_loc : calm ploc. Proof. intros s p. discriminate. Qed.
Lemma calm_skip : forall n, calm (pskip n). Proof. intros n s p. discriminate. Qed.
Lemma calm_read : forall E, calm (pread E).
Proof. intros E s p. unfold pread. destruct (p_rest s); [destruct E|]; discriminate. Qed.
Lemma calm_back : forall {A} (m : P A), calm m -> calm (back m).
Proof. intros A m H s p. specialize (H s). unfold back. destruct (m s) as ([a|e|q|] & s'); try discriminate. exact (fun _ => H q eq_refl). Qed.
Lemma calm_eof : forall E, calm (peof E).
Proof. intros E s p. unfold peof, pread. destruct (p_rest s); [destruct E|]; discriminate. Qed.
#[local] Hint Resolve calm_ret calm_fail calm_fuel calm_bind calm_get calm_put calm_loc calm_skip calm_read calm_back calm_eof : calm.
Lemma calm_peek : forall E n, calm (ppeek E n).
Proof.
  intros E n. apply calm_back. induction n as [|n IH]; cbn; auto with calm. apply calm_bind; auto with calm. intros [c|]; auto with calm.
Qed.
Lemma calm_prefix : forall E w, calm (pprefix E w).
Proof.
  intros E w. apply calm_back. induction w as [|a w IH]; cbn; auto with calm. apply calm_bind; auto with calm.
  intros [c|]; [destruct (N.eqb c a)|]; auto with calm.
Qed.
Lemma calm_expected : forall E g c, calm (perr_expected E g c).
Proof.
  intros E g c. apply calm_bind; auto with calm. intros l s p.
  assert (K : calm (pstream_prefix E)).
  { unfold pstream_prefix. apply calm_bind; auto with calm. intros [|]; auto with calm. apply calm_bind; auto with calm. apply calm_peek. }
  specialize (K s). cbn. destruct (pstream_prefix E s) as ([a|e|q|] & s'); try discriminate. exact (fun _ => K q eq_refl).
Qed.
#[local] Hint Resolve calm_peek calm_prefix calm_expected : calm.
Lemma calm_skip_any : forall E n, calm (pskip_any E n).
Proof.
  intros E n. apply calm_bind; auto with calm. induction n as [|n IH]; cbn; auto with calm. apply calm_bind; auto with calm. intros [c|]; auto with calm.
Qed.
#[local] Hint Resolve calm_skip_any : calm.
Lemma calm_sprog : forall E p own, calm (prun_sprog E p own).
Proof.
  intros E. induction p as [r|e|k IH|k IH|k IH|w k IH|n k IH|n k IH|k IH|i k IH|i k IH]; intros own; cbn [prun_sprog]; auto with calm.
  - destruct (skipn i own); auto with calm.
  - destruct (skipn i own); auto with calm.
Qed.
Lemma calm_scan : forall E f sc def, calm (pspecial_scan E f sc def).
Proof.
  intros E f [c|pred mn mx|re fi|sy pr] def; cbn [pspecial_scan]; auto with calm.
  - unfold pchars_scan. repeat (apply calm_bind; auto with calm; intros).
    + assert (K : forall n, calm (pchars_loop E f pred mx n)); [|apply K]. induction f as [|f IH]; intros n; cbn; auto with calm.
      destruct (match mx with Some m => _ | None => true end); auto with calm. repeat (apply calm_bind; auto with calm; intros).
      match goal with |- calm (match ?x with _ => _ end) => destruct x as [c|]; auto with calm end. destruct (negb (pred c)); auto with calm.
    + destruct (match mn with Some m => _ | None => false end); auto with calm.
  - unfold pregex_scan. repeat (apply calm_bind; auto with calm; intros). destruct (fi _) as [([|k] & len)|]; auto with calm.
    destruct (Nat.ltb _ _); auto with calm.
  - apply calm_sprog.
Qed.
#[local] Hint Resolve calm_scan : calm.
Lemma calm_rep : forall sub, (forall e, calm (sub e)) -> forall f mn mx i t, calm (prep_loop sub f mn mx i t).
Proof.
  intros sub Hs. induction f as [|f IH]; intros mn mx i t; cbn [prep_loop]; auto with calm. destruct (N.ltb i mx); auto with calm.
  apply calm_bind; auto with calm. intros s. apply calm_bind; auto with calm. intros ([|e] & tmp).
  - apply calm_bind; auto with calm. intros l. destruct (_ && _)%bool; auto with calm.
  - destruct (N.ltb i mn); auto with calm.
Qed.
Lemma or_length : forall sub subs s es s', por_loop sub subs s = (Ok (inl es), s') -> length es = length subs.
Proof.
  intros sub subs. induction subs as [|a subs IH]; intros s es s' H; cbn [por_loop] in H; [injection H as <- <-; reflexivity|].
  rewrite (pbind_ok pget _ s _ _ eq_refl) in H. destruct (sub a s) as ([([|e] & tmp)|e|p|] & s1) eqn:E.
  - rewrite (pbind_ok _ _ _ _ _ E) in H. discriminate.
  - rewrite (pbind_ok _ _ _ _ _ E) in H. rewrite (pbind_ok (pput s) _ s1 _ _ eq_refl) in H. destruct (por_loop sub subs s) as ([[es'|t]|e'|p|] & s2) eqn:E2.
    + rewrite (pbind_ok _ _ _ _ _ E2) in H. injection H as <- <-. cbn. f_equal. eapply IH. exact E2.
    + rewrite (pbind_ok _ _ _ _ _ E2) in H. discriminate.
    + rewrite (pbind_err _ _ _ _ _ E2) in H. discriminate.
    + rewrite (pbind_panic _ _ _ _ _ E2) in H. discriminate.
    + rewrite (pbind_fuel _ _ _ _ E2) in H. discriminate.
  - rewrite (pbind_err _ _ _ _ _ E) in H. discriminate.
  - rewrite (pbind_panic _ _ _ _ _ E) in H. discriminate.
  - rewrite (pbind_fuel _ _ _ _ E) in H. discriminate.
Qed.
Lemma calm_or : forall sub subs, Forall (fun a => calm (sub a)) subs -> calm (por_loop sub subs).
Proof.
  intros sub subs H. induction H as [|a subs Ha H IH]; cbn [por_loop]; auto with calm. apply calm_bind; auto with calm. intros s.
  apply calm_bind; auto with calm. intros ([|e] & tmp); auto with calm.
Qed.

Section Panic.
Variable rs : list rule.
Variable cfg : config.
Variable g : graph.
Hypothesis Hg : faithful cfg rs g.
Notation code := (code cfg (g_instrs g)).

(** Every reference in [n] is defined; no empty definition-list in [n]. *)
Definition within (n : node) (p : primary) : Prop :=
  match n with
  | NPrim q => inside p q
  | NFactor f => inside p (f_prim f)
  | NTerm t => inside p (f_prim (t_factor t)) \/ exists e, t_exc t = Some e /\ inside p (f_prim e)
  | NSeq ts => exists t, In t ts /\ (inside p (f_prim (t_factor t)) \/ exists e, t_exc t = Some e /\ inside p (f_prim e))
  | NDefs ds => exists ts t, In ts ds /\ In t ts /\ (inside p (f_prim (t_factor t)) \/ exists e, t_exc t = Some e /\ inside p (f_prim e))
  | _ => False
  end.
Definition full (n : node) : Prop :=
  match n with
  | NPrim q => filled q
  | NFactor f => filled (f_prim f)
  | NTerm t => filled_t t
  | NSeq ts => filled_seq ts
  | NDefs ds => filled_defs ds
  | _ => False
  end.
Definition closed (n : node) : Prop := (forall l id, within n (PMeta l id) -> defined rs id) /\ full n.
Hypothesis Hrules : Forall (fun r => closed (NDefs (r_defs r))) rs.
Definition safe (f : nat) (next : option nat) : Prop := forall E evs, calm (prun g f E next evs).
Lemma rule_closed : forall id r, names rs id r -> closed (NDefs (r_defs r)).
Proof. intros id r (H & _). rewrite Forall_forall in Hrules. apply Hrules. exact H. Qed.
Lemma safe_none : forall f, safe f None.
Proof. intros [|f] E evs s p; discriminate. Qed.
Lemma calm_except : forall f fa ex, (forall f', f' <= f -> safe f' (Some fa)) -> (forall f', f' <= f -> safe f' (Some ex)) ->
  forall E addr evs, calm (pexcept_scan g (fun en a ev => prun g f en (Some a) ev) E f addr fa ex evs).
Proof.
  intros f fa ex H1 H2 E addr evs. unfold pexcept_scan. apply calm_bind; auto with calm. intros s. apply calm_bind; [apply H1; lia|].
  intros ([|e] & tmp); auto with calm. apply calm_bind; auto with calm. intros s'. cbv zeta. destruct (Nat.ltb _ _); [|intros ? ?; discriminate].
  match goal with |- calm (match fst ?x with _ => _ end) => assert (K : forall p, fst x <> Panic p); [|destruct (fst x) as [[|]|e|q|]; auto with calm] end.
  - apply calm_bind; [apply H2; lia|]. intros ([|e] & t2); auto with calm.
  - intros ? ?. exfalso. exact (K q eq_refl).
Qed.
Lemma calm_special : forall f E addr ins sc evs, (forall id a, g_label g id = Some a -> safe f (Some a)) ->
  calm (pspecial_step g (fun a ev => prun g f E (Some a) ev) E f addr ins sc evs).
Proof.
  intros f E addr ins sc evs H. unfold pspecial_step. apply calm_bind; auto with calm. intros s. apply calm_bind; auto with calm.
  intros [ev| |id]; auto with calm. destruct (g_label g id) as [a|] eqn:El; auto with calm. apply calm_bind; [eapply H; exact El|].
  intros (q & e2). auto with calm.
Qed.
Lemma closed_group : forall l d q, q = POptional l d \/ q = PRepeated l d \/ q = PGrouped l d -> closed (NPrim q) -> closed (NDefs d).
Proof.
  intros l d q Hq (H1 & H2). split.
  - intros l' id (ts & t & A & B & C). apply (H1 l' id). cbn. eapply inside_deeper; eauto.
  - cbn in *. destruct Hq as [-> | [-> | ->]]; inversion H2; subst; assumption.
Qed.
Lemma closed_factor : forall n p, closed (NFactor (Factor n p)) -> closed (NPrim p).
Proof. intros n p (H1 & H2). split; [exact H1|exact H2]. Qed.
Lemma closed_term : forall f e, closed (NTerm (Term f e)) -> closed (NFactor f).
Proof. intros f e (H1 & H2). split; [intros l id K; apply (H1 l id); left; exact K|]. cbn in *. inversion H2; subst; assumption. Qed.
Lemma closed_except : forall f e, closed (NTerm (Term f (Some e))) -> closed (NFactor e).
Proof. intros f e (H1 & H2). split; [intros l id K; apply (H1 l id); right; exists e; auto|]. cbn in *. inversion H2; subst; assumption. Qed.
Lemma closed_head : forall t ts, closed (NSeq (t :: ts)) -> closed (NTerm t).
Proof.
  intros t ts (H1 & H2). split; [intros l id K; apply (H1 l id); exists t; split; [left; reflexivity|exact K]|].
  cbn in *. inversion H2; subst; assumption.
Qed.
Lemma closed_tail : forall t t2 ts, closed (NSeq (t :: t2 :: ts)) -> closed (NSeq (t2 :: ts)).
Proof.
  intros t t2 ts (H1 & H2). split; [intros l id (t' & K1 & K2); apply (H1 l id); exists t'; split; [right; exact K1|exact K2]|].
  cbn in *. inversion H2; subst; assumption.
Qed.
Lemma closed_def : forall d ds, closed (NDefs (d :: ds)) -> closed (NSeq d).
Proof.
  intros d ds (H1 & H2). split; [intros l id (t' & K1 & K2); apply (H1 l id); exists d, t'; split; [left; reflexivity|auto]|].
  cbn in *. inversion H2; subst; assumption.
Qed.
Lemma closed_defs : forall d d2 ds, closed (NDefs (d :: d2 :: ds)) -> closed (NDefs (d2 :: ds)).
Proof.
  intros d d2 ds (H1 & H2). split; [intros l id (ts & t' & K1 & K2); apply (H1 l id); exists ts, t'; split; [right; exact K1|exact K2]|].
  cbn in *. inversion H2; subst; assumption.
Qed.
Lemma safe_run : forall f n i next, code n i next -> closed n -> (forall f', f' < f -> safe f' next) -> safe f (Some i).
Proof.
  induction f as [f IHf] using lt_wf_ind. destruct f as [|f0]; [intros n i next _ _ _ E evs s p; discriminate|].
  assert (Lab : forall f', f' <= f0 -> forall id a, g_label g id = Some a -> safe f' (Some a)).
  { intros f' Hf' id a Ha. destruct (defined_dec rs id) as [(r & Hr)|Hu].
    - destruct (proj1 (Hg id) r Hr) as (i & Hi & Hc & _). rewrite Hi in Ha. injection Ha as <-.
      eapply (IHf f'); [lia|exact Hc|eapply rule_closed; exact Hr|]. intros. apply safe_none.
    - destruct (dollar_dec rs id) as [(r & Hin & Hd)|Hd].
      + destruct (proj1 (proj2 (Hg id)) r Hin Hd) as (i & Hi & Ha'). rewrite Hi in Ha. injection Ha as <-.
        eapply (IHf f' ltac:(lia) (NPrim (PMeta (r_loc r) (r_id r)))); [constructor; exact Ha'| |intros; apply safe_none].
        split; [|constructor]. intros l id' K. inversion K; subst; [|intuition congruence]. exists r. split; [exact Hin|]. apply same_name_keyed. reflexivity.
      + rewrite (proj2 (proj2 (proj2 (Hg id))) Hu Hd) in Ha. discriminate. }
  assert (K : (forall n i next, code n i next -> closed n -> (forall f', f' < S f0 -> safe f' next) -> safe (S f0) (Some i)) /\
    (forall ds is, codes cfg (g_instrs g) ds is -> (forall d, In d ds -> closed (NSeq d)) -> Forall (fun i => safe f0 (Some i)) is)).
  2:{ intros n i next Hc. apply (proj1 K); assumption. }
  assert (Sub : forall n i, code n i None -> closed n -> forall f', f' <= f0 -> safe f' (Some i)).
  { intros n i Hc Hcl f' Hle. eapply IHf; [lia|exact Hc|exact Hcl|intros; apply safe_none]. }
  apply code_codes_mut.
  - intros l i next Hi _ Hn E evs. cbn [prun]. rewrite Hi. cbn [i_step i_next]. apply Hn. lia.
  - intros l w i next Hi _ Hn E evs. cbn [prun]. rewrite Hi. cbn [i_step i_next].
    apply calm_bind.
    + unfold pterminal_step. apply calm_bind; auto with calm. intros [|]; auto with calm.
    + intros ([|e] & ev); auto with calm. apply Hn. lia.
  - intros l c i next Hi _ Hn E evs. cbn [prun]. rewrite Hi. cbn [i_step i_next].
    apply calm_bind; [apply calm_special; apply Lab; lia|]. intros ([|e] & ev); auto with calm. apply Hn. lia.
  - intros l id i next Hi (Hcl & _) Hn E evs. cbn [prun]. rewrite Hi. cbn [i_step i_next i_def].
    destruct (Hcl l id (inside_here _)) as (r & Hr). destruct (proj1 (Hg id) r Hr) as (a & Ha & _ & Hcn). rewrite Ha, Hcn.
    apply calm_bind; auto with calm. intros l1. apply calm_bind; [eapply Lab; [|exact Ha]; lia|]. intros ([|e] & ev); auto with calm.
    apply calm_bind; auto with calm. intros l2. apply Hn. lia.
  - intros l d i next sub Hi Hc _ Hcl Hn E evs. cbn [prun]. rewrite Hi. cbn [i_step i_next].
    apply calm_bind; [apply calm_rep; intros e; apply (Sub (NDefs d)); [exact Hc|eapply closed_group; [|exact Hcl]; auto|lia]|].
    intros [e|t]; auto with calm. apply Hn. lia.
  - intros l d i next sub Hi Hc _ Hcl Hn E evs. cbn [prun]. rewrite Hi. cbn [i_step i_next].
    apply calm_bind; [apply calm_rep; intros e; apply (Sub (NDefs d)); [exact Hc|eapply closed_group; [|exact Hcl]; auto|lia]|].
    intros [e|t]; auto with calm. apply Hn. lia.
  - intros l d i next Hc IH Hcl Hn. apply IH; [eapply closed_group; [|exact Hcl]; auto|]. intros. apply safe_none.
  - intros p i next Hc IH Hcl Hn. apply IH; [eapply closed_factor; exact Hcl|exact Hn].
  - intros n p i next sub l Hne Hi Hc _ Hcl Hn E evs. cbn [prun]. rewrite Hi. cbn [i_step i_next].
    apply calm_bind; [apply calm_rep; intros e; apply (Sub (NPrim p)); [exact Hc|eapply closed_factor; exact Hcl|lia]|].
    intros [e|t]; auto with calm. apply Hn. lia.
  - intros f i next Hc IH Hcl Hn. apply IH; [eapply closed_term; exact Hcl|exact Hn].
  - intros f e i next fa ex l Hi Hc1 _ Hc2 _ Hcl Hn E evs. cbn [prun]. rewrite Hi. cbn [i_step i_next].
    apply calm_bind.
    + apply calm_except; [eapply Sub; [exact Hc1|eapply closed_term; exact Hcl]|eapply Sub; [exact Hc2|eapply closed_except; exact Hcl]].
    + intros ([|e'] & ev); auto with calm. apply Hn. lia.
  - intros t i next Hc IH Hcl Hn. apply IH; [eapply closed_head; exact Hcl|exact Hn].
  - intros t t2 ts i j next Hc1 IH1 Hc2 _ Hcl Hn. apply IH1; [eapply closed_head; exact Hcl|]. intros f' Hf'.
    eapply IHf; [lia|exact Hc2|eapply closed_tail; exact Hcl|]. intros f2 Hf2. apply Hn. lia.
  - intros ts i Hc IH Hcl Hn. apply IH; [eapply closed_def; exact Hcl|exact Hn].
  - intros i l _ (_ & Hcl). cbn in Hcl. inversion Hcl.
  - intros d1 d2 ds i l subs Hi Hcs IH Hcl Hn E evs. cbn [prun]. rewrite Hi. cbn [i_step i_next].
    assert (HF : Forall (fun i => safe f0 (Some i)) subs).
    { apply IH. clear -Hcl. revert d1 Hcl. generalize (d2 :: ds) as dd. induction dd as [|d3 dd IHd]; intros d1 Hcl d [->|Hin]; try contradiction.
      - eapply closed_def. exact Hcl.
      - eapply closed_def. exact Hcl.
      - eapply IHd; [|exact Hin]. eapply closed_defs. exact Hcl. }
    intros s p. unfold pbind at 1.
    assert (Ho : calm (por_loop (fun s => prun g f0 E (Some s) []) subs)).
    { apply calm_or. eapply Forall_impl; [|exact HF]. intros a Ha. apply Ha. }
    specialize (Ho s). destruct (por_loop (fun s => prun g f0 E (Some s) []) subs s) as ([[es|t]|e|q|] & s1) eqn:Eo; try discriminate.
    + assert (Hl : length es = length subs) by (eapply or_length; exact Eo). destruct (rev es) as [|x xs] eqn:Er.
      * exfalso. apply (f_equal (@length _)) in Er. rewrite rev_length in Er. cbn in Er. rewrite Hl in Er. inversion Hcs; subst. discriminate.
      * cbn [pick_error]. apply calm_bind; auto with calm. intros l1. destruct (loc_eqb _ l1); auto with calm.
    + apply Hn. lia.
    + intros _. exact (Ho q eq_refl).
  - intros _. constructor.
  - intros d ds i is Hc _ Hcs IH Hcl. constructor; [|apply IH; intros d' Hd'; apply Hcl; right; exact Hd']. eapply Sub; [exact Hc|apply Hcl; left; reflexivity|lia].
Qed.
End Panic.

Definition refs_defined (rs : list rule) : Prop := forall r l id, In r rs -> refers_deep r l id -> defined rs id.
Lemma closed_rules : forall rs, refs_defined rs -> Forall (fun r => filled_defs (r_defs r)) rs -> Forall (fun r => closed rs (NDefs (r_defs r))) rs.
Proof.
  intros rs H1 H2. rewrite Forall_forall in *. intros r Hr. split; [|exact (H2 r Hr)]. intros l id (ts & t & A & B & C).
  apply (H1 r l id Hr). eapply inside_deeper; eauto.
Qed.
Lemma entry_safe : forall rs cfg g r m, faithful cfg rs g -> In r rs -> refs_defined rs -> Forall (fun r => filled_defs (r_defs r)) rs ->
  parser_of g r m -> forall f, safe g f (Some (mc_entry m)).
Proof.
  intros rs cfg g r m Hg Hin Hd Hf (_ & Ha) f.
  eapply (safe_run rs cfg g Hg (closed_rules _ Hd Hf) f (NPrim (PMeta (r_loc r) (r_id r)))); [constructor; exact Ha| |intros; apply safe_none].
  split; [|constructor]. intros l id' K. inversion K; subst; [|intuition congruence]. exists r. split; [exact Hin|]. apply same_name_keyed. reflexivity.
Qed.
Lemma parse_calm : forall g m debug E, (forall f, safe g f (Some (mc_entry m))) -> debug = false \/ E <> None ->
  forall f, calm (pmachine_parse g debug f E (mc_entry m)).
Proof.
  intros g m debug E Hs Hc f. unfold pmachine_parse. apply calm_bind; [apply Hs|]. intros ([|er] & ev); auto with calm.
  destruct Hc as [->|Hc].
  - apply calm_bind; auto with calm. intros [|]; cbn; auto with calm.
  - intros s p. unfold peof, pread, pbind at 1. destruct (p_rest s) as [|c rr]; [destruct E; [discriminate|contradiction]|].
    assert (K : calm (pbind (perr_expected E g None) (fun e => pfail (A := list event) e))); [|apply K].
    apply calm_bind; [apply calm_expected|]. intros; apply calm_fail.
Qed.
Lemma parse_no_panic : forall rs cfg g id m debug fuel rd p, parser_for rs cfg g id m -> reader rd ->
  refs_defined rs -> Forall (fun r => filled_defs (r_defs r)) rs -> nesting_scanners cfg ->
  fst (parser_parse debug g fuel m rd) <> Panic p.
Proof.
  intros rs cfg g id m debug fuel rd p Hp Hr Hd Hf Hn. destruct (parser_rule _ _ _ _ _ Hp) as (r & Hnm & Hm).
  pose proof (parser_faithful _ _ _ _ _ Hp) as Hg. destruct (parse_reader debug g fuel m rd Hr) as (A & _). rewrite A.
  pose proof (entry_safe rs cfg g r m Hg (proj1 Hnm) Hd Hf Hm) as Hs.
  destruct (ending_of rd) as [e|] eqn:Ee; [apply parse_calm; [exact Hs|right; discriminate]|].
  intros H. pose proof (pparse_sound rs cfg g Hg debug fuel m r (stand rd) Hm) as K. rewrite H in K.
  destruct K as [K|(_ & _ & s' & raw & K1 & K2 & _)].
  - destruct (pparse_complete rs cfg g Hg false m r (stand rd) _ Hm K) as (f0 & Hf0). destruct (Hf0 f0 (le_n _)) as (q & Hq).
    revert Hq. apply parse_calm; auto.
  - inversion K1; subst. match goal with X : SpecParse.ev _ _ (NDefs _) _ (Match _ _) |- _ => pose proof (ev_nested rs cfg Hn _ _ _ X) as HN end. cbn [List.tl app] in K2. rewrite (labels_app _ HN) in K2. discriminate.
Qed.
