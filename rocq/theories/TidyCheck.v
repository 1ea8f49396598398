(** Whether rules are tidy (SpecEvents.v) can be computed. *)
From Coq Require Import String List NArith Arith Bool Lia.
From Verif Require Import Base Ast Graph SpecText SpecSyntax SpecParse SpecEvents CodeFacts.
Import ListNotations.
Open Scope nat_scope.

Fixpoint sure_p (p : primary) : bool :=
  let sure_t (t : term_ primary) := match t_exc t with Some _ => false | None => sure_p (f_prim (t_factor t)) end in
  match p with
  | POptional _ _ | PRepeated _ _ | PEmpty _ => true
  | PGrouped _ d => existsb (forallb sure_t) d
  | _ => false
  end.
Definition sure_t (t : term) : bool := match t_exc t with Some _ => false | None => sure_p (f_prim (t_factor t)) end.
Definition sure_s (ts : list term) : bool := forallb sure_t ts.
Definition sure_d (d : definition_list) : bool := existsb sure_s d.

Fixpoint clean_p (p : primary) : bool :=
  let clean_t (t : term_ primary) :=
    match t_exc t with Some _ => true | None => sure_p (f_prim (t_factor t)) || negb (N.eqb (f_rep (t_factor t)) 1) || clean_p (f_prim (t_factor t)) end in
  sure_p p || match p with
  | PTerminal _ _ | PSpecial _ _ | PMeta _ _ => true
  | PGrouped _ d =>
      sure_d d || match d with
      | [ts] => sure_s ts || match ts with t :: ts' => clean_t t && sure_s ts' | [] => true end
      | [] => false
      | _ => true
      end
  | _ => false
  end.
Definition clean_t (t : term) : bool :=
  match t_exc t with Some _ => true | None => sure_p (f_prim (t_factor t)) || negb (N.eqb (f_rep (t_factor t)) 1) || clean_p (f_prim (t_factor t)) end.
Definition clean_s (ts : list term) : bool := sure_s ts || match ts with t :: ts' => clean_t t && sure_s ts' | [] => true end.
Definition clean_d (d : definition_list) : bool := sure_d d || match d with [ts] => clean_s ts | [] => false | _ => true end.

Fixpoint tidy_p (p : primary) : bool :=
  let tidy_d (d : list (list (term_ primary))) := forallb (forallb (fun t => tidy_p (f_prim (t_factor t)))) d in
  match p with
  | POptional _ d | PRepeated _ d => clean_d d && tidy_d d
  | PGrouped _ d => tidy_d d
  | _ => true
  end.
Definition tidy_d (d : definition_list) : bool := forallb (forallb (fun t : term => tidy_p (f_prim (t_factor t)))) d.
(** All rules are tidy. *)
Definition tidies (rs : list rule) : bool := forallb (fun r => tidy_d (r_defs r)) rs.

Lemma sure_seq : forall ts, (forall t, In t ts -> sure_t t = true <-> sure (NTerm t)) -> sure_s ts = true <-> sure (NSeq ts).
Proof.
  induction ts as [|t ts IH]; intros H; [split; [constructor|reflexivity]|]. cbn [sure_s forallb]. rewrite andb_true_iff, (H t (or_introl eq_refl)).
  unfold sure_s in IH. rewrite IH by (intros t' Ht; apply H; right; exact Ht). split; [intros (A & B); constructor; assumption|]. intros A. inversion A; subst. auto.
Qed.
Lemma sure_defs : forall d, (forall ts, In ts d -> sure_s ts = true <-> sure (NSeq ts)) -> sure_d d = true <-> sure (NDefs d).
Proof.
  intros d H. unfold sure_d. rewrite existsb_exists. split.
  - intros (ts & Hin & E). eapply su_defs; [exact Hin|]. apply H; assumption.
  - intros A. inversion A as [| | | | | | | |ts ds Hin Hs| | |]; subst. exists ts. split; [exact Hin|]. apply H; assumption.
Qed.
Lemma sure_term : forall t, (sure_p (f_prim (t_factor t)) = true <-> sure (NPrim (f_prim (t_factor t)))) -> sure_t t = true <-> sure (NTerm t).
Proof.
  intros [[n p] [e|]] H; unfold sure_t; cbn [t_exc t_factor f_prim] in *; [split; [discriminate|intros A; inversion A]|]. rewrite H.
  split; [intros A; repeat constructor; exact A|]. intros A. inversion A as [| | | | |f B| | | | | |]; subst. inversion B; subst. assumption.
Qed.
Lemma sure_prim : forall p, sure_p p = true <-> sure (NPrim p).
Proof.
  induction p as [l d IH|l d IH|l d IH|l id|l w|l c|l] using primary_nested; cbn [sure_p].
  1,2,7: split; [constructor|reflexivity].
  2,3,4: split; [discriminate|intros A; inversion A].
  change (sure_d d = true <-> sure (NPrim (PGrouped l d))).
  rewrite sure_defs; [split; [apply su_group|intros A; inversion A; assumption]|].
  intros ts Hts. apply sure_seq. intros t Ht. apply sure_term. rewrite Forall_forall in IH. specialize (IH ts Hts). rewrite Forall_forall in IH. exact (proj1 (IH t Ht)).
Qed.
Lemma sure_t_ok : forall t, sure_t t = true <-> sure (NTerm t).
Proof. intros t. apply sure_term, sure_prim. Qed.
Lemma sure_s_ok : forall ts, sure_s ts = true <-> sure (NSeq ts).
Proof. intros ts. apply sure_seq. intros t _. apply sure_t_ok. Qed.
Lemma sure_d_ok : forall d, sure_d d = true <-> sure (NDefs d).
Proof. intros d. apply sure_defs. intros ts _. apply sure_s_ok. Qed.

Lemma clean_term : forall t, (clean_p (f_prim (t_factor t)) = true <-> clean (NPrim (f_prim (t_factor t)))) -> clean_t t = true <-> clean (NTerm t).
Proof.
  intros [[n p] [e|]] H; unfold clean_t; cbn [t_exc t_factor f_prim f_rep] in *; [split; [intros _; apply cl_except|reflexivity]|].
  rewrite !orb_true_iff, H, sure_prim, negb_true_iff, N.eqb_neq. split.
  - intros [[A|A]|A].
    + apply cl_sure. repeat constructor. exact A.
    + apply cl_term, cl_factor. exact A.
    + destruct (N.eq_dec n 1) as [->|Hn]; [apply cl_term, cl_factor1; exact A|apply cl_term, cl_factor; exact Hn].
  - intros A. inversion A as [n0 B| | | | | | | |f B| | | | | |]; subst.
    + inversion B as [| | | | |f C| | | | | |]; subst. inversion C; subst. auto.
    + inversion B as [n0 C| | | | | | | | | | | | | |]; subst; auto. inversion C; subst. auto.
Qed.
Lemma clean_seq : forall ts, (forall t, In t ts -> clean_t t = true <-> clean (NTerm t)) -> clean_s ts = true <-> clean (NSeq ts).
Proof.
  intros ts H. unfold clean_s. rewrite orb_true_iff, sure_s_ok. destruct ts as [|t ts].
  - split; [intros _; apply cl_sure, su_nil|auto].
  - rewrite andb_true_iff, sure_s_ok, (H t (or_introl eq_refl)). split.
    + intros [A|(A & B)]; [apply cl_sure, A|apply cl_seq; assumption].
    + intros A. inversion A; subst; auto.
Qed.
Lemma clean_defs : forall d, (forall ts, In ts d -> clean_s ts = true <-> clean (NSeq ts)) -> clean_d d = true <-> clean (NDefs d).
Proof.
  intros d H. unfold clean_d. rewrite orb_true_iff, sure_d_ok. destruct d as [|ts [|ts2 d]].
  - split; [intros [A|A]; [apply cl_sure, A|discriminate]|]. intros A. inversion A; subst. auto.
  - rewrite (H ts (or_introl eq_refl)). split; [intros [A|A]; [apply cl_sure, A|apply cl_defs1, A]|]. intros A. inversion A; subst; auto.
  - split; [intros _; apply cl_defs|auto].
Qed.
Lemma clean_prim : forall p, clean_p p = true <-> clean (NPrim p).
Proof.
  induction p as [l d IH|l d IH|l d IH|l id|l w|l c|l] using primary_nested.
  1,2,7: split; [intros _; apply cl_sure; constructor|reflexivity].
  2,3,4: split; [intros _; first [apply cl_meta|apply cl_terminal|apply cl_special]|reflexivity].
  change (sure_d d || clean_d d = true <-> clean (NPrim (PGrouped l d))).
  rewrite orb_true_iff, sure_d_ok, clean_defs.
  - split; [intros [A|A]; [apply cl_sure, su_group, A|apply cl_group, A]|]. intros A. inversion A as [n0 B| | | | | | | | | | | | | |]; subst; auto. inversion B; subst. auto.
  - intros ts Hts. apply clean_seq. intros t Ht. apply clean_term. rewrite Forall_forall in IH. specialize (IH ts Hts). rewrite Forall_forall in IH. exact (proj1 (IH t Ht)).
Qed.
Lemma clean_d_ok : forall d, clean_d d = true <-> clean (NDefs d).
Proof. intros d. apply clean_defs. intros ts _. apply clean_seq. intros t _. apply clean_term, clean_prim. Qed.

Lemma tidy_seq : forall ts, (forall t, In t ts -> tidy_p (f_prim (t_factor t)) = true <-> tidy (NPrim (f_prim (t_factor t)))) ->
  forallb (fun t : term => tidy_p (f_prim (t_factor t))) ts = true <-> tidy (NSeq ts).
Proof.
  induction ts as [|[[n p] e] ts IH]; intros H; [split; [constructor|reflexivity]|]. cbn [forallb]. rewrite andb_true_iff, (H _ (or_introl eq_refl)).
  rewrite IH by (intros t' Ht; apply H; right; exact Ht). cbn [t_factor f_prim]. split; [intros (A & B); apply td_seq; [apply td_term, td_factor, A|exact B]|].
  intros A. inversion A as [| | | | | | | | | | |t0 ts0 B C| | | |]; subst. inversion B as [| | | | | | | | |f e0 D| | | | | |]; subst. inversion D; subst. auto.
Qed.
Lemma tidy_defs : forall d, (forall ts, In ts d -> forall t, In t ts -> tidy_p (f_prim (t_factor t)) = true <-> tidy (NPrim (f_prim (t_factor t)))) ->
  tidy_d d = true <-> tidy (NDefs d).
Proof.
  intros d H. unfold tidy_d. rewrite forallb_forall. split.
  - intros A. apply td_defs. rewrite Forall_forall. intros ts Hts. apply tidy_seq; [exact (H ts Hts)|exact (A ts Hts)].
  - intros A ts Hts. apply tidy_seq; [exact (H ts Hts)|]. inversion A as [| | | | | | | | | | | |ds B| | |]; subst. rewrite Forall_forall in B. exact (B ts Hts).
Qed.
Lemma tidy_prim : forall p, tidy_p p = true <-> tidy (NPrim p).
Proof.
  assert (Hin : forall d, Forall (Forall (P_term (fun p => tidy_p p = true <-> tidy (NPrim p)))) d -> tidy_d d = true <-> tidy (NDefs d)).
  { intros d IH. apply tidy_defs. intros ts Hts t Ht. rewrite Forall_forall in IH. specialize (IH ts Hts). rewrite Forall_forall in IH. exact (proj1 (IH t Ht)). }
  induction p as [l d IH|l d IH|l d IH|l id|l w|l c|l] using primary_nested.
  4,5,6,7: split; [constructor|reflexivity].
  - change (clean_d d && tidy_d d = true <-> tidy (NPrim (POptional l d))). rewrite andb_true_iff, clean_d_ok, (Hin d IH). split; [intros (A & B); apply td_optional; assumption|]. intros A. inversion A; subst. auto.
  - change (clean_d d && tidy_d d = true <-> tidy (NPrim (PRepeated l d))). rewrite andb_true_iff, clean_d_ok, (Hin d IH). split; [intros (A & B); apply td_repeated; assumption|]. intros A. inversion A; subst. auto.
  - change (tidy_d d = true <-> tidy (NPrim (PGrouped l d))). rewrite (Hin d IH). split; [apply td_group|]. intros A. inversion A; subst. auto.
Qed.
Lemma tidies_ok : forall rs, tidies rs = true <-> Forall (fun r => tidy (NDefs (r_defs r))) rs.
Proof.
  intros rs. unfold tidies. rewrite forallb_forall, Forall_forall. split; intros H r Hr.
  - apply (tidy_defs (r_defs r)); [|exact (H r Hr)]. intros ts _ t _. apply tidy_prim.
  - apply (tidy_defs (r_defs r)); [|exact (H r Hr)]. intros ts _ t _. apply tidy_prim.
Qed.
