(** Rules whose choices never have to be undone: the constructs of rules listed, and LL(1) rules. *)
From Coq Require Import String List NArith Arith Bool Lia.
From Verif Require Import Base Ident Ast Graph SpecText SpecSyntax TextFacts SyntaxFacts SpecParse SpecEvents SpecTotal SpecLL SpecExact Pure CodeFacts PureFacts ParseFacts EvFacts LangFacts TotalFacts LLFacts ExactFacts.
Import ListNotations.
Open Scope nat_scope.

(** ** The constructs, as a list *)
Fixpoint list_p (p : primary) : list node :=
  let list_f (f : factor_ primary) := NFactor f :: list_p (f_prim f) in
  let list_t (t : term_ primary) := NTerm t :: list_f (t_factor t) ++ match t_exc t with Some e => list_f e | None => [] end in
  let list_s := fix go ts := NSeq ts :: match ts with [] => [] | t :: ts => list_t t ++ go ts end in
  NPrim p :: match p with
  | POptional _ d | PRepeated _ d | PGrouped _ d => NDefs d :: flat_map list_s d
  | _ => []
  end.
Definition list_f (f : factor) : list node := NFactor f :: list_p (f_prim f).
Definition list_t (t : term) : list node := NTerm t :: list_f (t_factor t) ++ match t_exc t with Some e => list_f e | None => [] end.
Fixpoint list_s (ts : list term) : list node := NSeq ts :: match ts with [] => [] | t :: ts => list_t t ++ list_s ts end.
Definition list_d (d : definition_list) : list node := NDefs d :: flat_map list_s d.
Definition list_all (rs : list rule) : list node := flat_map (fun r => list_d (r_defs r)) rs.
Definition listed (n : node) : list node :=
  match n with NDefs d => list_d d | NSeq ts => list_s ts | NTerm t => list_t t | NFactor f => list_f f | NPrim p => list_p p | _ => [n] end.
Lemma list_p_eq : forall p, list_p p = NPrim p :: match p with POptional _ d | PRepeated _ d | PGrouped _ d => list_d d | _ => [] end.
Proof. intros p. destruct p; reflexivity. Qed.
Lemma listed_self : forall n, In n (listed n).
Proof.
  intros n. destruct n as [d|ds|ts|t|f|p|mn mx i b|l id|id]; try (left; reflexivity); cbn [listed].
  - destruct ts; left; reflexivity.
  - rewrite list_p_eq. left. reflexivity.
Qed.
Definition whole (l : list node) : Prop := forall n, In n l -> incl (listed n) l.
Lemma whole_f : forall f, whole (list_p (f_prim f)) -> whole (list_f f).
Proof. intros f H n [<-|Hn]; [apply incl_refl|]. apply incl_tl. exact (H n Hn). Qed.
Lemma whole_t : forall t, P_term (fun p => whole (list_p p)) t -> whole (list_t t).
Proof.
  intros t (H1 & H2) n [<-|Hn]; [apply incl_refl|]. apply incl_tl. apply in_app_iff in Hn as [Hn|Hn]; [apply incl_appl, (whole_f _ H1 _ Hn)|].
  apply incl_appr. destruct (t_exc t) as [e|]; [|destruct Hn]. exact (whole_f _ H2 _ Hn).
Qed.
Lemma whole_s : forall ts, Forall (P_term (fun p => whole (list_p p))) ts -> whole (list_s ts).
Proof.
  intros ts H. induction H as [|t ts Ht H IH]; intros n Hn; cbn [list_s] in Hn; destruct Hn as [<-|Hn]; try apply incl_refl; [destruct Hn|].
  cbn [list_s]. apply incl_tl. apply in_app_iff in Hn as [Hn|Hn]; [apply incl_appl, (whole_t _ Ht _ Hn)|apply incl_appr, (IH _ Hn)].
Qed.
Lemma whole_d : forall d, Forall (Forall (P_term (fun p => whole (list_p p)))) d -> whole (list_d d).
Proof.
  intros d H n [<-|Hn]; [apply incl_refl|]. unfold list_d. apply incl_tl. apply in_flat_map in Hn as (ts & Hts & Hn). rewrite Forall_forall in H.
  intros x Hx. apply in_flat_map. exists ts. split; [exact Hts|]. exact (whole_s _ (H _ Hts) _ Hn _ Hx).
Qed.
Lemma whole_p : forall p, whole (list_p p).
Proof.
  induction p as [l d IH|l d IH|l d IH|l id|l w|l c|l] using primary_nested; intros n Hn; rewrite list_p_eq in Hn |- *; destruct Hn as [<-|Hn];
    try (cbn [listed]; rewrite list_p_eq; apply incl_refl); try (destruct Hn; fail); apply incl_tl; exact (whole_d _ IH _ Hn).
Qed.
Lemma whole_all : forall rs, whole (list_all rs).
Proof.
  intros rs n Hn x Hx. apply in_flat_map in Hn as (r & Hr & Hn). apply in_flat_map. exists r. split; [exact Hr|]. refine (whole_d _ _ _ Hn _ Hx).
  rewrite Forall_forall. intros ts _. rewrite Forall_forall. intros t _. split; [apply whole_p|]. destruct (t_exc t); [apply whole_p|exact I].
Qed.
Lemma within_all : forall rs n m, In n (list_all rs) -> In m (listed n) -> In m (list_all rs).
Proof. intros rs n m Hn Hm. exact (whole_all rs n Hn m Hm). Qed.
Lemma construct_listed : forall rs n, construct rs n -> In n (list_all rs).
Proof.
  intros rs n (r & Hr & H). induction H.
  - apply in_flat_map. exists r. split; [exact Hr|left; reflexivity].
  - apply in_flat_map. exists r0. split; [exact (proj1 H0)|left; reflexivity].
  - eapply within_all; [exact IHuses|]. right. apply in_flat_map. exists d. split; [exact H0|apply listed_self].
  - eapply within_all; [exact IHuses|]. cbn [listed list_s]. right. apply in_or_app. left. left. reflexivity.
  - eapply within_all; [exact IHuses|]. cbn [listed list_s]. right. apply in_or_app. right. apply listed_self.
  - eapply within_all; [exact IHuses|]. right. apply in_or_app. left. left. reflexivity.
  - eapply within_all; [exact IHuses|]. right. apply in_or_app. right. left. reflexivity.
  - eapply within_all; [exact IHuses|]. right. cbn [f_prim]. apply listed_self.
  - eapply within_all; [exact IHuses|]. cbn [listed]. rewrite list_p_eq. right. left. reflexivity.
  - eapply within_all; [exact IHuses|]. cbn [listed]. rewrite list_p_eq. right. left. reflexivity.
  - eapply within_all; [exact IHuses|]. cbn [listed]. rewrite list_p_eq. right. left. reflexivity.
Qed.

(** ** LL(1) rules *)
Section One.
Variable rules : list rule.
Variable cfg : config.
Variable start : str.
Hypothesis Hpred : predictive rules cfg start.
Let Hst : straightforward rules := proj1 (proj2 Hpred).
Lemma construct_part : forall n, construct rules n -> part rules n.
Proof.
  intros n (r & Hr & H). induction H; eauto using SpecLL.part; [apply pt_rule; exact (proj1 H0)|]. exfalso. exact (proj1 Hst _ _ IHuses).
Qed.
Lemma ahead_after : forall n k, ahead rules cfg start n k -> after rules cfg start n (hd_error k).
Proof.
  intros n k H. induction H; eauto using SpecLL.after.
  - apply xlang_lang in H0. destruct w as [|c w]; cbn; [eapply af_head_last; eauto|]. eapply af_head; [exact IHahead|]. exists w. exact H0.
  - exfalso. exact (proj1 Hst _ _ (construct_part _ H)).
  - apply xlang_lang in H1. destruct w as [|c w]; cbn; [eapply af_factor; eauto|]. eapply af_again; [exact IHahead| |exact (factor_begins _ _ _ _ H1 _ _ eq_refl)].
    destruct (N.eq_dec i 0) as [->|]; [|lia]. inversion H1; subst. lia.
  - apply xlang_lang in H0. destruct w as [|c w]; cbn; [eapply af_repeated; eauto|]. eapply af_round; [exact IHahead|]. eapply repeated_begins; eauto.
Qed.
Lemma predictive_determinate : determinate rules cfg start.
Proof.
  pose proof Hpred as ((K1 & K2 & K3 & K4 & K5 & K6) & (S1 & S2) & (A1 & A2 & A3 & A4) & Hleft).
  assert (Hp := construct_part). split; [|split; [|exact Hleft]].
  - split; [auto|]. split; [eauto|]. split; [eauto|]. split; [intros l d H; exact (K4 _ _ (Hp _ H))|]. split; [intros p H; exact (K5 _ (Hp _ H))|].
    split; [eauto|]. split; [|exact K6]. intros f e f' e' H. exfalso. exact (S1 _ _ (Hp _ H)).
  - split; [|split; [|split]].
    + intros before d between d' behind k w u v Ha Hw E Hu. apply ahead_after in Ha. apply xlang_lang in Hw, Hu. exfalso.
      destruct (A1 _ _ _ _ _ _ Ha) as (B1 & B2 & B3). destruct u as [|c u]; [exact (B1 Hu)|]. assert (Hb : begins rules cfg (NSeq d) c) by (exists u; exact Hu).
      destruct w as [|c' w]; cbn in E.
      * subst k. exact (B3 Hw c eq_refl Hb).
      * injection E as -> _. apply (B2 _ Hb). exists w. exact Hw.
    + intros l d u v Ha Hu. apply ahead_after in Ha. apply xlang_lang in Hu. destruct u as [|c u]; [reflexivity|]. exfalso. apply (A2 l d c Ha). exists u. exact Hu.
    + intros l d u v Ha Hu. pose proof (Hp _ (ahead_construct _ _ _ _ _ Ha)) as Hc. apply ahead_after in Ha. apply xlang_lang in Hu. destruct u as [|c u]; [exact (K4 _ _ Hc Hu)|].
      apply (A3 l d c Ha). exists u. exact Hu.
    + intros l c w s s' Ha Hw. apply ahead_after in Ha. apply xlang_lang in Hw. eapply A4; eauto.
Qed.
End One.
