(** Facts about rules that grow. *)
From Coq Require Import String List NArith Arith Bool Lia.
From Verif Require Import Base Ast Graph SpecText SpecSyntax TextFacts SpecParse SpecEvents SpecTotal SpecLL SpecExact SpecDeriv SpecOnly ParseFacts CodeFacts EventFacts DerivFacts OnlyFacts SpecGrow.
Import ListNotations.
Open Scope nat_scope.

Lemma app_nil_both : forall (A : Type) (l : list A), l = l ++ [].
Proof. intros A l. symmetry. apply app_nil_r. Qed.

Section Rules.
Variables old new : list rule.
Variables cfg cfg' : config.
Hypothesis Hg : grown_rules old new cfg cfg'.
Notation grows := (grows old new cfg cfg').
Notation xnew := (xderives new cfg').

Definition kept_in (n : node) (s : pst) (e : list event) (s' : pst) : Prop :=
  forall n', grows n n' -> exists e', xnew n' s e' s' /\ map seen e' = map seen e.
Lemma new_once : forall p s e s', xnew (NPrim p) s e s' -> xnew (NTerm (Term (Factor 1 p) None)) s e s'.
Proof.
  intros p s e s' H. constructor. change 1%N with (N.succ 0). rewrite (app_nil_both _ e). eapply xd_times; [exact H|constructor].
Qed.
Lemma new_single : forall t s e s', xnew (NTerm t) s e s' -> xnew (NDefs [[t]]) s e s'.
Proof.
  intros t s e s' H. eapply xd_defs; [left; reflexivity|]. rewrite (app_nil_both _ e). eapply xd_seq; [exact H|constructor].
Qed.
Lemma new_round : forall l d s e s', xnew (NDefs d) s e s' -> xnew (NPrim (PRepeated l d)) s e s'.
Proof. intros l d s e s' H. rewrite (app_nil_both _ e). eapply xd_repeated; [exact H|constructor]. Qed.
Lemma new_skip : forall t ts s e s', extra t = true -> xnew (NSeq ts) s e s' -> xnew (NSeq (t :: ts)) s e s'.
Proof.
  intros t ts s e s' Ht H. change e with ([] ++ e). apply xd_seq with s; [|exact H].
  destruct t as [[n p] [x|]]; cbn in Ht; [destruct n as [|[| |]]; destruct p; discriminate|].
  destruct n as [|[| |]]; try discriminate. destruct p; try discriminate; apply new_once; constructor.
Qed.
Ltac seen_app := rewrite ?map_app; congruence.
Lemma old_kept : forall n s e s', xderives old cfg n s e s' -> kept_in n s e s'.
Proof.
  intros n s e s' H. induction H as
    [l w s s' Hw|l s|l c s s' e Hs|l id r s e s' Hn Hd IH|l d s|l d s e s' Hd IH|l d s|l d s e1 s1 e2 s2 H1 IH1 H2 IH2
    |l d s e s' Hd IH|p s|n p s e1 s1 e2 s2 H1 IH1 H2 IH2|f s e s' Hf IH|f x w s e s' Hf IH Hw Hx|s|t ts s e1 s1 e2 s2 H1 IH1 H2 IH2|ds d s e s' Hi Hd IH]; intros n' G.
  - inversion G; subst. eexists. split; [constructor; exact Hw|reflexivity].
  - inversion G; subst. eexists. split; [constructor|reflexivity].
  - inversion G as [| |l0 c0 l' c' K| | | | | | | | | | | | | | | |]; subst. destruct (K _ _ _ Hs) as (e' & K1 & K2). exists e'. split; [constructor; exact K1|exact K2].
  - inversion G; subst. destruct (Hg _ _ Hn) as (r' & Hn' & E & Gr). destruct (IH _ Gr) as (e' & K1 & K2).
    eexists. split; [econstructor; eassumption|]. cbn [map seen]. rewrite !map_app, E, K2. reflexivity.
  - inversion G; subst; (eexists; split; [constructor|reflexivity]).
  - inversion G as [| | | |l0 l' d0 d' K|l0 l' d0 d' K| | | | | | | | | | | | |]; subst; destruct (IH _ K) as (e' & K1 & K2); exists e'.
    + split; [constructor; exact K1|exact K2].
    + split; [apply new_round; exact K1|exact K2].
  - inversion G; subst. eexists. split; [constructor|reflexivity].
  - inversion G as [| | | | | |l0 l' d0 d' K| | | | | | | | | | | |]; subst. destruct (IH1 _ K) as (a & A1 & A2).
    destruct (IH2 _ G) as (b & B1 & B2). exists (a ++ b). split; [econstructor; eassumption|seen_app].
  - inversion G as [| | | | | | |l0 l' d0 d' K| | | | | | | | | | |]; subst. destruct (IH _ K) as (e' & K1 & K2). exists e'. split; [constructor; exact K1|exact K2].
  - inversion G; subst. eexists. split; [constructor|reflexivity].
  - inversion G as [| | | | | | | |n0 p0 p' K| | | | | | | | | |]; subst. destruct (IH1 _ K) as (a & A1 & A2).
    destruct (IH2 (NFactor (Factor n p')) (gr_factor _ _ _ _ _ _ _ K)) as (b & B1 & B2). exists (a ++ b). split; [econstructor; eassumption|seen_app].
  - inversion G as [| | | | | | | | |f0 f' K| | |l0 f0 f' K|l0 f0 f' K| | | | |]; subst; destruct (IH _ K) as (e' & K1 & K2); exists e'; (split; [|exact K2]).
    + constructor. exact K1.
    + apply new_once, xd_optional, new_single. constructor. exact K1.
    + apply new_once, new_round, new_single. constructor. exact K1.
  - inversion G as [| | | | | | | | | |f0 f' x0 x' K Kx|f0 f' x0 K| | | | | | |]; subst; destruct (IH _ K) as (e' & K1 & K2); exists e'; (split; [|exact K2]).
    + eapply xd_except; [exact K1|exact Hw|]. intros Hl. apply Hx, Kx, Hl.
    + constructor. exact K1.
  - assert (Q : forall ts', grows (NSeq []) (NSeq ts') -> exists e', xnew (NSeq ts') s e' s /\ map seen e' = map seen []).
    { induction ts' as [|t' ts' IH]; intros K; [exists []; split; [constructor|reflexivity]|].
      inversion K as [| | | | | | | | | | | | | | | |l0 d0 ts0 ts1 K1|l0 d0 ts0 ts1 K1|]; subst; destruct (IH K1) as (e' & A & B); exists e';
        (split; [apply new_skip; [reflexivity|exact A]|exact B]). }
    inversion G; subst; apply Q; exact G.
  - assert (Q : forall ts', grows (NSeq (t :: ts)) (NSeq ts') -> exists e', xnew (NSeq ts') s e' s2 /\ map seen e' = map seen (e1 ++ e2)).
    { induction ts' as [|t' ts' IH]; intros K; [inversion K|].
      inversion K as [| | | | | | | | | | | | | | |t0 t1 ts0 ts1 K1 K2|l0 d0 ts0 ts1 K1|l0 d0 ts0 ts1 K1|]; subst.
      - destruct (IH1 _ K1) as (a & A1 & A2). destruct (IH2 _ K2) as (b & B1 & B2). exists (a ++ b). split; [econstructor; eassumption|seen_app].
      - destruct (IH K1) as (e' & A & B). exists e'. split; [apply new_skip; [reflexivity|exact A]|exact B].
      - destruct (IH K1) as (e' & A & B). exists e'. split; [apply new_skip; [reflexivity|exact A]|exact B]. }
    inversion G; subst; apply Q; exact G.
  - inversion G as [| | | | | | | | | | | | | | | | | |ds0 ds' K]; subst. destruct (K _ Hi) as (d' & Hi' & Gd). destruct (IH _ Gd) as (e' & K1 & K2).
    exists e'. split; [econstructor; eassumption|exact K2].
Qed.
Lemma derivation_kept : forall id s raw s', xderivation old cfg id s raw s' ->
  exists raw', xderivation new cfg' id s raw' s' /\ map seen raw' = map seen raw.
Proof.
  intros id s raw s' (r & e & Hn & Hd & ->). destruct (Hg _ _ Hn) as (r' & Hn' & E & Gr). destruct (old_kept _ _ _ _ Hd _ Gr) as (e' & K1 & K2).
  eexists. split; [exists r', e'; split; [exact Hn'|split; [exact K1|reflexivity]]|]. cbn [map seen]. rewrite !map_app, E, K2. reflexivity.
Qed.
End Rules.

(** Rules without exceptions. *)
Definition stands_in (rs : list rule) (n : node) : Prop :=
  match n with NFactor (Factor _ p) => part rs (NPrim p) | _ => part rs n end.
Lemma plain_derives : forall rs cfg, (forall f x, ~ part rs (NTerm (Term f (Some x)))) ->
  forall n s e s', derives rs cfg n s e s' -> stands_in rs n -> xderives rs cfg n s e s'.
Proof.
  intros rs cfg Hx n s e s' H. induction H as
    [l w s s' Hw|l s|l c s s' e Hs|l id r s e s' Hn Hd IH|l d s|l d s e s' Hd IH|l d s|l d s e1 s1 e2 s2 H1 IH1 H2 IH2
    |l d s e s' Hd IH|p s|n p s e1 s1 e2 s2 H1 IH1 H2 IH2|f x s e s' Hf IH|s|t ts s e1 s1 e2 s2 H1 IH1 H2 IH2|ds d s e s' Hi Hd IH]; cbn [stands_in] in *; intros P.
  - constructor. exact Hw.
  - constructor.
  - constructor. exact Hs.
  - econstructor; [exact Hn|]. apply IH. constructor. exact (proj1 Hn).
  - constructor.
  - constructor. apply IH. eapply pt_optional. exact P.
  - constructor.
  - econstructor; [apply IH1; eapply pt_repeated; exact P|apply IH2; exact P].
  - constructor. apply IH. eapply pt_group. exact P.
  - constructor.
  - econstructor; [apply IH1; exact P|apply IH2; exact P].
  - destruct x as [x|]; [exfalso; exact (Hx _ _ P)|]. constructor. apply IH. destruct f as [n p]. eapply pt_factor, pt_term. exact P.
  - constructor.
  - econstructor; [apply IH1; eapply pt_head; exact P|apply IH2; eapply pt_rest; exact P].
  - econstructor; [exact Hi|]. apply IH. eapply pt_defs; eassumption.
Qed.

(** Events that look alike are solid alike. *)
Lemma solid_seen : forall a b, map seen a = map seen b -> map seen (solid a) = map seen (solid b).
Proof.
  unfold solid. induction a as [|x a IH]; intros [|y b] H; try discriminate; [reflexivity|]. cbn [map] in H. injection H as Hxy Hab.
  specialize (IH _ Hab). cbn [fold_right]. set (u := fold_right solid_step [] a) in *. set (v := fold_right solid_step [] b) in *. clearbody u v.
  destruct x as [d l w|d l c|d l c], y as [d2 l2 w2|d2 l2 c2|d2 l2 c2]; cbn [seen] in Hxy; try discriminate.
  - injection Hxy as -> ->. destruct w2; cbn [solid_step map seen]; [exact IH|rewrite IH; reflexivity].
  - injection Hxy as -> ->. destruct u as [|[] u], v as [|[] v]; cbn [map seen] in IH; try discriminate; cbn [solid_step map seen]; congruence.
  - injection Hxy as -> ->. cbn [solid_step map seen]. rewrite IH. reflexivity.
Qed.

(** ** The check *)
Section Check.
Variables old new : list rule.
Variables cfg cfg' : config.
Hypothesis Hsc : forall l l' c s s' e, scanned (cfg l c) l s (SMatch s' e) ->
  exists e', scanned (cfg' l' c) l' s (SMatch s' e') /\ map seen e' = map seen e.
Notation grows := (grows old new cfg cfg').
Lemma terminal_word : forall c rs l w v, lang c rs (NFactor (Factor 1 (PTerminal l w))) v -> v = w.
Proof.
  intros c rs l w v H. inversion H as [| | | | | | | | | |n p w1 w2 H1 H2 E1 E2| | | |]; subst.
  assert (n = 0%N) by lia. subst n. inversion H1; subst. inversion H2 as [| | | | | | | | | |n0 p0 w3 w4 H3 H4 E3 E4| | | |]; subst; [apply app_nil_r|lia].
Qed.
Lemma exc_grows : forall f f' x x', grows (NFactor f) (NFactor f') -> same_exc x x' = true -> grows (NTerm (Term f x)) (NTerm (Term f' x')).
Proof.
  intros f f' [x|] [x'|] H E.
  - destruct x as [n p], x' as [n' p']. cbn in E.
    destruct n as [|[n|n|]]; try (destruct p; discriminate). destruct p as [l d|l d|l d|l i|l w|l w|l]; try discriminate.
    destruct n' as [|[n'|n'|]]; try (destruct p'; discriminate). destruct p' as [l' d'|l' d'|l' d'|l' i'|l' w'|l' w'|l']; try discriminate.
    apply str_eqb_eq in E. subst w'. apply gr_except; [exact H|]. intros v Hv. apply terminal_word in Hv. subst v.
    pose proof (lg_times cfg old 0 (PTerminal l w) w [] (lg_terminal _ _ _ _) (lg_zero _ _ _)) as K. rewrite app_nil_r in K. exact K.
  - apply gr_drop. exact H.
  - discriminate.
  - apply gr_term. exact H.
Qed.
Definition prim_ok (p : primary) : Prop := forall p', prim_grows p p' = true -> grows (NPrim p) (NPrim p').
Lemma term_ok : forall t t', prim_ok (f_prim (t_factor t)) -> term_grows t t' = true -> grows (NTerm t) (NTerm t').
Proof.
  intros [[n p] x] [[n' p'] x'] Hp H. cbn [t_factor f_prim] in Hp. cbn [term_grows] in H. apply orb_true_iff in H as [H|H].
  - apply andb_true_iff in H as (H & Hx). apply andb_true_iff in H as (Hn & H). apply N.eqb_eq in Hn. subst n'.
    apply exc_grows; [apply gr_factor, Hp, H|exact Hx].
  - destruct x as [x|]; [discriminate|]. destruct n' as [|[n'|n'|]]; try discriminate.
    destruct p' as [l d|l d|l d|l i|l w|l w|l]; try discriminate;
      (destruct d as [|[|[[n1 p1] [x1|]] [|]] [|]]; try discriminate); (destruct x' as [x'|]; [discriminate|]);
      apply andb_true_iff in H as (Hn & H); apply N.eqb_eq in Hn; subst n1.
    + apply gr_loosen, gr_factor, Hp, H.
    + apply gr_repeat, gr_factor, Hp, H.
Qed.
Lemma extra_cases : forall t, extra t = true -> exists l d, t = Term (Factor 1 (POptional l d)) None \/ t = Term (Factor 1 (PRepeated l d)) None.
Proof.
  intros [[n p] [x|]] H; cbn in H; [destruct n as [|[| |]]; destruct p; discriminate|].
  destruct n as [|[| |]]; try discriminate. destruct p; try discriminate; eauto.
Qed.
Lemma seq_ok : forall ts, Forall (P_term prim_ok) ts -> forall ts', seq_grows term_grows ts ts' = true -> grows (NSeq ts) (NSeq ts').
Proof.
  intros ts HF. induction HF as [|t ts (Ht & _) HF IH]; induction ts' as [|t' ts' IH']; cbn [seq_grows]; intros H; try discriminate.
  - constructor.
  - rewrite orb_false_r in H. apply andb_true_iff in H as (E & H). apply extra_cases in E as (l & d & [->| ->]); [apply gr_option|apply gr_repetition]; apply IH', H.
  - apply orb_true_iff in H as [H|H]; apply andb_true_iff in H as (E & H).
    + apply extra_cases in E as (l & d & [->| ->]); [apply gr_option|apply gr_repetition]; apply IH', H.
    + apply gr_seq; [apply term_ok; assumption|apply IH, H].
Qed.
Lemma defs_ok : forall d, Forall (Forall (P_term prim_ok)) d -> forall d', defs_grow d d' = true -> grows (NDefs d) (NDefs d').
Proof.
  intros d HF d' H. apply gr_defs. intros ts Hi. unfold defs_grow in H. rewrite forallb_forall in H. specialize (H _ Hi).
  rewrite existsb_exists in H. destruct H as (ts' & Hi' & H). exists ts'. split; [exact Hi'|]. apply seq_ok; [|exact H].
  rewrite Forall_forall in HF. apply HF, Hi.
Qed.
Lemma all_prims_ok : forall p, prim_ok p.
Proof.
  induction p as [l d IH|l d IH|l d IH|l id|l w|l c|l] using primary_nested; intros p' H; destruct p' as [l' d'|l' d'|l' d'|l' id'|l' w'|l' c'|l']; try discriminate.
  - apply gr_optional, defs_ok; [exact IH|exact H].
  - apply gr_more, defs_ok; [exact IH|exact H].
  - apply gr_repeated, defs_ok; [exact IH|exact H].
  - apply gr_group, defs_ok; [exact IH|exact H].
  - apply str_eqb_eq in H. subst. constructor.
  - apply str_eqb_eq in H. subst. constructor.
  - apply str_eqb_eq in H. subst. constructor. intros s s' e. apply Hsc.
  - constructor.
Qed.
Lemma all_defs_ok : forall d d', defs_grow d d' = true -> grows (NDefs d) (NDefs d').
Proof.
  intros d d'. apply defs_ok. apply Forall_forall. intros ts _. apply Forall_forall. intros t _. split; [apply all_prims_ok|].
  destruct (t_exc t); [apply all_prims_ok|exact I].
Qed.
Lemma rules_grow_ok : rules_grow old new = true -> grown_rules old new cfg cfg'.
Proof.
  intros H id r (Hi & Hn). unfold rules_grow in H. rewrite forallb_forall in H. specialize (H _ Hi). rewrite existsb_exists in H.
  destruct H as (r' & Hi' & H). apply andb_true_iff in H as (E & H). apply str_eqb_eq in E. exists r'.
  split; [split; [exact Hi'|rewrite <- E; exact Hn]|]. split; [symmetry; exact E|]. apply all_defs_ok, H.
Qed.
End Check.
(** Scanners of the library do not look at the definition. *)
Lemma library_elsewhere : forall sc l l' s s' e, library_scanner sc -> scanned sc l s (SMatch s' e) ->
  exists e', scanned sc l' s (SMatch s' e') /\ map seen e' = map seen e.
Proof.
  intros sc l l' s s' e Hl H. inversion H; subst; try contradiction; (eexists; split; [econstructor; eassumption|reflexivity]).
Qed.
