(** Facts about trees made of events. *)
From Coq Require Import String List NArith Arith Bool Lia.
From Verif Require Import Base Ast Graph Tree SpecText SpecSyntax TextFacts SpecParse SpecEvents ParseFacts EventFacts LangFacts PropAst SpecFold.
Import ListNotations.
Open Scope nat_scope.

(** The trees of nested events, by the structure of the events. *)
Inductive grown : list event -> list ast -> Prop :=
| gw_nil : grown [] []
| gw_token : forall d l w r ts, grown r ts -> grown (EvToken d l w :: r) (AAtom l None w :: ts)
| gw_pair : forall d l l2 b a r cs ts, grown a cs -> grown r ts ->
    grown (EvBegin d l b :: a ++ EvEnd d l2 b :: r) (AComplex l None cs :: ts).
Lemma nested_grown : forall es, nested es -> exists ts, grown es ts.
Proof.
  intros es H. induction H as [|d l w r H (ts & IH)|d l l2 b a r Ha (cs & IHa) Hr (ts & IHr)].
  - exists []. constructor.
  - exists (AAtom l None w :: ts). constructor. exact IH.
  - exists (AComplex l None cs :: ts). constructor; assumption.
Qed.
Lemma grown_run : forall es ts, grown es ts -> forall rest open here,
  fold_events (es ++ rest) open here = fold_events rest open (here ++ ts).
Proof.
  intros es ts H. induction H as [|d l w r ts H IH|d l l2 b a r cs ts Ha IHa Hr IHr]; intros rest open here.
  - rewrite app_nil_r. reflexivity.
  - cbn [app fold_events]. rewrite IH, <- app_assoc. reflexivity.
  - cbn [app fold_events]. rewrite <- app_assoc, IHa. cbn [app fold_events fr_def fr_label fr_before fr_at].
    rewrite loc_eqb_refl, str_eqb_refl. cbn [andb]. rewrite IHr, <- app_assoc. reflexivity.
Qed.
Lemma grown_trees : forall es ts, grown es ts -> trees es = Some ts.
Proof. intros es ts H. unfold trees. rewrite <- (app_nil_r es), (grown_run _ _ H). reflexivity. Qed.
Lemma trees_grown : forall es ts, nested es -> trees es = Some ts -> grown es ts.
Proof.
  intros es ts Hn H. destruct (nested_grown es Hn) as (ts2 & Hg). rewrite (grown_trees _ _ Hg) in H. injection H as <-. exact Hg.
Qed.

(** The events close what is open. *)
Fixpoint closing (open : list frame) (es : list event) : Prop :=
  match open with
  | [] => nested es
  | f :: open => exists a l2 r, es = a ++ EvEnd (fr_def f) l2 (fr_label f) :: r /\ nested a /\ closing open r
  end.
Lemma closing_cons : forall open x es, (forall r, nested r -> nested (x :: r)) -> closing open es -> closing open (x :: es).
Proof.
  intros [|f open] x es Hx H; cbn [closing] in *; [apply Hx; exact H|].
  destruct H as (a & l2 & r & -> & Ha & H). exists (x :: a), l2, r. split; [reflexivity|]. split; [apply Hx; exact Ha|exact H].
Qed.
Lemma closing_pair : forall open d l l2 b a r, nested a -> closing open r -> closing open (EvBegin d l b :: a ++ EvEnd d l2 b :: r).
Proof.
  intros [|f open] d l l2 b a r Ha H; cbn [closing] in *; [constructor; assumption|].
  destruct H as (a2 & l3 & r2 & -> & Ha2 & H). exists (EvBegin d l b :: a ++ EvEnd d l2 b :: a2), l3, r2.
  split; [cbn; rewrite <- app_assoc; reflexivity|]. split; [constructor; assumption|exact H].
Qed.
Lemma fold_closing : forall es open here ts, fold_events es open here = Some ts -> closing open es.
Proof.
  induction es as [|e es IH]; intros open here ts H.
  - destruct open; [constructor|discriminate].
  - destruct e as [d l w|d l b|d l b]; cbn [fold_events] in H.
    + apply closing_cons; [intros r Hr; constructor; exact Hr|eapply IH; exact H].
    + apply IH in H. cbn [closing fr_def fr_label] in H. destruct H as (a & l2 & r & -> & Ha & H). apply closing_pair; assumption.
    + destruct open as [|f open]; [discriminate|]. destruct (loc_eqb (fr_def f) d && str_eqb (fr_label f) b) eqn:E; [|discriminate].
      apply andb_true_iff in E as (E1 & E2). apply loc_eqb_eq in E1. apply str_eqb_eq in E2. subst d b.
      apply IH in H. cbn [closing]. exists [], l, es. split; [reflexivity|]. split; [constructor|exact H].
Qed.
Lemma trees_nested : forall es, (exists ts, trees es = Some ts) <-> nested es.
Proof.
  intros es. split.
  - intros (ts & H). exact (fold_closing _ _ _ _ H).
  - intros H. destruct (nested_grown es H) as (ts & K). exists ts. apply grown_trees. exact K.
Qed.

(** What the trees tell. *)
Lemma grown_walk : forall es ts, grown es ts -> flat_map walk ts = map bare es.
Proof.
  intros es ts H. induction H as [|d l w r ts H IH|d l l2 b a r cs ts Ha IHa Hr IHr]; [reflexivity|cbn; rewrite IH; reflexivity|].
  cbn. rewrite map_app. cbn. rewrite IHa, IHr, <- app_assoc. reflexivity.
Qed.
Lemma token_complex : forall l n cs, a_token (AComplex l n cs) = concat (map a_token cs).
Proof. intros l n cs. cbn. apply fold_tokens. Qed.
Lemma grown_tokens : forall es ts, grown es ts -> concat (map a_token ts) = tokens es.
Proof.
  intros es ts H. induction H as [|d l w r ts H IH|d l l2 b a r cs ts Ha IHa Hr IHr]; [reflexivity|cbn; rewrite IH; reflexivity|].
  cbn [map concat tokens]. rewrite token_complex, tokens_app. cbn [tokens]. rewrite IHa, IHr. reflexivity.
Qed.
Lemma trail_split : forall a s b s', trail s (a ++ b) s' -> exists s1, trail s a s1 /\ trail s1 b s'.
Proof.
  induction a as [|e a IH]; intros s b s' H; [exists s; split; [constructor|exact H]|].
  cbn in H. inversion H as [|? d t s1 ? ? Hg Ht|? d b0 ? ? Ht|? d b0 ? ? Ht]; subst;
    destruct (IH _ _ _ Ht) as (s2 & H1 & H2); exists s2; (split; [econstructor; eassumption|exact H2]).
Qed.
Lemma located_later : forall s w s1 u, goes s w s1 -> located s1 u -> located s u.
Proof.
  intros s w s1 u Hg (v & s2 & s3 & H1 & H2 & H3). exists (w ++ v), s2, s3. split; [eapply goes_app; eassumption|]. auto.
Qed.
Lemma grown_located : forall es ts, grown es ts -> forall s s', trail s es s' ->
  forall t u, In t ts -> part_of u t -> located s u.
Proof.
  intros es ts H. induction H as [|d l w r ts H IH|d l l2 b a r cs ts Ha IHa Hr IHr]; intros s s' Ht t u Hi Hp.
  - contradiction.
  - inversion Ht as [|? d0 t0 s1 ? ? Hg Ht1| |]; subst. destruct Hi as [<-|Hi].
    + inversion Hp; subst. exists [], s, s1. split; [apply goes_nil|]. split; [exact Hg|reflexivity].
    + eapply located_later; [exact Hg|]. eapply IH; eassumption.
  - inversion Ht as [| |? d0 b0 ? ? Ht1|]; subst. apply trail_split in Ht1 as (s1 & Ht1 & Ht2).
    inversion Ht2 as [| | |? d1 b1 ? ? Ht3]; subst. pose proof (trail_tokens _ _ _ Ht1) as Hg.
    destruct Hi as [<-|Hi].
    + inversion Hp as [|l0 n0 cs0 c Hc Hu]; subst.
      * exists [], s, s1. split; [apply goes_nil|]. split; [|reflexivity]. rewrite token_complex, (grown_tokens _ _ Ha). exact Hg.
      * eapply IHa; eassumption.
    + eapply located_later; [exact Hg|]. eapply IHr; eassumption.
Qed.
