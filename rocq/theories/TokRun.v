(** Runs of the tokenizer: [tokenize_loop], [push_str] and [flush]. *)
From Coq Require Import String List NArith Arith Bool Lia.
From Verif Require Import Base Tokenizer Lex SpecText TextFacts SpecTok TokFacts.
Import ListNotations.
Open Scope nat_scope.

(** Decisions taken one after the other. *)
Inductive steps : location -> str -> list token -> location -> str -> Prop :=
| steps_nil : forall l b, steps l b [] l b
| steps_cons : forall l b t n ts l' b',
    read_next l b false = Ok (Some (t, n)) ->
    steps (loc_push_str l (firstn n b)) (skipn n b) ts l' b' ->
    steps l b (t :: ts) l' b'.

Definition stuck (l : location) (b : str) : Prop := read_next l b false = Ok None.

Definition tl (l : location) (b : str) := tokenize_loop (S (length b)) l b.

Lemma read_next_split : forall l b fl t n, read_next l b fl = Ok (Some (t, n)) ->
  firstn n b = tok_text t /\ b = tok_text t ++ skipn n b /\ 0 < n <= length b.
Proof.
  intros l b fl t n H. apply read_next_sound in H as (rest & -> & -> & Hpos & _).
  rewrite firstn_app, Nat.sub_diag, firstn_O, app_nil_r, firstn_all.
  rewrite skipn_app, Nat.sub_diag, skipn_all. cbn [app skipn].
  repeat split; auto. rewrite app_length. lia.
Qed.

Lemma skipn_length_lt : forall (b : str) n, 0 < n <= length b -> length (skipn n b) < length b.
Proof. intros. rewrite skipn_length. lia. Qed.

(** Enough fuel is enough. *)
Lemma loop_steps : forall f b l, length b < f ->
  exists ts l' b', steps l b ts l' b' /\
    ((stuck l' b' /\ tokenize_loop f l b = (l', Ok (ts, b'))) \/
     (exists e, read_next l' b' false = Err e /\ tokenize_loop f l b = (l', Err e))).
Proof.
  induction f as [|f IH]; intros b l Hf; [lia|].
  destruct b as [|c r].
  { exists [], l, []. split; [constructor|]. left. split; reflexivity. }
  cbn [tokenize_loop]. set (b := c :: r) in *.
  pose proof (read_next_no_panic l b false) as Hp.
  destruct (read_next l b false) as [[[t n]|]|e|p|] eqn:E; try (destruct Hp; fail).
  - destruct (read_next_split _ _ _ _ _ E) as (_ & _ & Hn).
    pose proof (skipn_length_lt b n Hn).
    destruct (IH (skipn n b) (loc_push_str l (firstn n b)) ltac:(lia))
      as (ts & l' & b' & Hs & [(Hst & Ht)|(e & He & Ht)]); rewrite Ht.
    + exists (t :: ts), l', b'. split; [econstructor; eassumption|]. left. split; [exact Hst|reflexivity].
    + exists (t :: ts), l', b'. split; [econstructor; eassumption|]. right. exists e. split; [exact He|reflexivity].
  - exists [], l, b. split; [constructor|]. left. split; [exact E|reflexivity].
  - exists [], l, b. split; [constructor|]. right. exists e. split; [exact E|reflexivity].
Qed.

Lemma tl_steps : forall l b, exists ts l' b', steps l b ts l' b' /\
    ((stuck l' b' /\ tl l b = (l', Ok (ts, b'))) \/
     (exists e, read_next l' b' false = Err e /\ tl l b = (l', Err e))).
Proof. intros l b. apply loop_steps. lia. Qed.

Lemma steps_det : forall l b ts1 l1 b1, steps l b ts1 l1 b1 ->
  (forall t n, read_next l1 b1 false <> Ok (Some (t, n))) ->
  forall ts2 l2 b2, steps l b ts2 l2 b2 ->
  (forall t n, read_next l2 b2 false <> Ok (Some (t, n))) ->
  ts1 = ts2 /\ l1 = l2 /\ b1 = b2.
Proof.
  intros l b ts1 l1 b1 H. induction H; intros Hend ts2 l2 b2 H2 Hend2.
  - inversion H2; subst; [auto|]. exfalso. eapply Hend; eassumption.
  - inversion H2; subst.
    + exfalso. eapply Hend2; eassumption.
    + rewrite H in H1. injection H1 as <- <-.
      destruct (IHsteps Hend _ _ _ H3 Hend2) as (-> & -> & ->). auto.
Qed.

(** The outcome of the loop, both directions. *)
Lemma tl_ok : forall l b l' ts b', tl l b = (l', Ok (ts, b')) <-> steps l b ts l' b' /\ stuck l' b'.
Proof.
  intros l b l' ts b'. destruct (tl_steps l b) as (ts0 & l0 & b0 & Hs & [(Hst & Ht)|(e & He & Ht)]); rewrite Ht.
  - split.
    + intros E. injection E as <- <- <-. auto.
    + intros (Hs2 & Hst2).
      destruct (steps_det _ _ _ _ _ Hs ltac:(congruence) _ _ _ Hs2 ltac:(congruence)) as (-> & -> & ->).
      reflexivity.
  - split; [discriminate|]. intros (Hs2 & Hst2).
    destruct (steps_det _ _ _ _ _ Hs ltac:(congruence) _ _ _ Hs2 ltac:(congruence)) as (-> & -> & ->).
    congruence.
Qed.
Lemma tl_err : forall l b l' e, tl l b = (l', Err e) <->
  exists ts b', steps l b ts l' b' /\ read_next l' b' false = Err e.
Proof.
  intros l b l' e. destruct (tl_steps l b) as (ts0 & l0 & b0 & Hs & [(Hst & Ht)|(e0 & He & Ht)]); rewrite Ht.
  - split; [discriminate|]. intros (ts & b' & Hs2 & He2).
    destruct (steps_det _ _ _ _ _ Hs ltac:(congruence) _ _ _ Hs2 ltac:(congruence)) as (-> & -> & ->).
    congruence.
  - split.
    + intros E. injection E as <- <-. eauto.
    + intros (ts & b' & Hs2 & He2).
      destruct (steps_det _ _ _ _ _ Hs ltac:(congruence) _ _ _ Hs2 ltac:(congruence)) as (-> & -> & ->).
      congruence.
Qed.
Lemma tl_cases : forall l b,
  (exists l' ts b', tl l b = (l', Ok (ts, b'))) \/ (exists l' e, tl l b = (l', Err e)).
Proof.
  intros l b. destruct (tl_steps l b) as (ts & l' & b' & _ & [(_ & H)|(e & _ & H)]); eauto 6.
Qed.

Lemma steps_trans : forall l b ts1 l1 b1, steps l b ts1 l1 b1 ->
  forall ts2 l2 b2, steps l1 b1 ts2 l2 b2 -> steps l b (ts1 ++ ts2) l2 b2.
Proof. intros l b ts1 l1 b1 H. induction H; intros; cbn [app]; [assumption|]. econstructor; eauto. Qed.

(** More text does not undo what is decided. *)
Lemma steps_app : forall l b ts l' b', steps l b ts l' b' ->
  forall x, steps l (b ++ x) ts l' (b' ++ x).
Proof.
  intros l b ts l' b' H. induction H; intros x; [constructor|].
  destruct (read_next_split _ _ _ _ _ H) as (_ & _ & Hn).
  econstructor.
  - rewrite read_next_stable by congruence. exact H.
  - specialize (IHsteps x).
    rewrite firstn_app, skipn_app. replace (n - length b) with 0 by lia.
    rewrite firstn_O, app_nil_r. exact IHsteps.
Qed.

Lemma steps_text : forall l b ts l' b', steps l b ts l' b' ->
  b = flat_map tok_text ts ++ b' /\ l' = loc_push_str l (flat_map tok_text ts).
Proof.
  intros l b ts l' b' H. induction H as [|l b t n ts l' b' H Hs (IH1 & IH2)]; [split; reflexivity|].
  destruct (read_next_split _ _ _ _ _ H) as (Hf & Hb & _). cbn [flat_map].
  split.
  - rewrite <- app_assoc, <- IH1. exact Hb.
  - rewrite push_str_app, <- Hf. exact IH2.
Qed.

Lemma steps_valid : forall l b ts l' b', steps l b ts l' b' ->
  Forall valid_tok ts.
Proof.
  intros l b ts l' b' H. induction H; constructor; [|assumption].
  apply read_next_sound in H as (rest & _ & _ & _ & Hv & _). exact Hv.
Qed.

(** ** Agreement with [lexes] *)
Lemma reaches_push : forall l t l', reaches l t l' <-> l' = loc_push_str l t.
Proof.
  intros l t l'. split.
  - intros H. exact (reaches_unique l t l' _ H (push_str_reaches l t)).
  - intros ->. apply push_str_reaches.
Qed.

(** Tokens of a whole text: what is decided, then the flush. *)
Definition flushed (l : location) (b : str) : option (list token) :=
  match b with
  | [] => Some [TEOF l]
  | _ => match read_next l b true with
         | Ok (Some (t, n)) => Some [t; TEOF (loc_push_str l b)]
         | _ => None
         end
  end.

Lemma flush_decides : forall l c r, read_next l (c :: r) true <> Ok None.
Proof.
  intros l c r E. unfold read_next, tok_ok in E. cbn [negb andb] in E.
    ifs_in E; try discriminate.
  - unfold terminal_string in E. destruct (scan_to c is_terminal r) as [| |[|]]; discriminate.
  - destruct r as [|d r2]; [discriminate|].
      ifs_in E; try discriminate.
      unfold comment in E. destruct r2 as [|e r3].
    * destruct (comment_loop d 0 _ []) as [| |[|]]; discriminate.
    * destruct (e =? c_rpar)%N; [discriminate|].
        destruct (comment_loop d 0 _ (e :: r3)) as [| |[|]]; discriminate.
  - unfold special_sequence in E. destruct (scan_to c_quest is_special r) as [| |]; discriminate.
Qed.

Lemma flushed_tail : forall l b, stuck l b ->
  tk_flush (Tk 0 b l) =
  match flushed l b with
  | Some ts => (Tk 0 [] (loc_push_str l b), Ok ts)
  | None => (Tk 0 b l, match read_next l b true with Err e => Err e | _ => OutOfFuel end)
  end.
Proof.
  intros l b Hst. unfold tk_flush, flushed. cbn [tk_loc tk_buf tk_max].
  destruct b as [|c r]; [reflexivity|]. set (b := c :: r) in *.
  pose proof (read_next_no_panic l b true) as Hp.
  destruct (read_next l b true) as [[[t n]|]|e|p|] eqn:E; try (destruct Hp; fail).
  - destruct (read_next_flush _ _ _ _ Hst E) as (-> & _).
    rewrite skipn_all, firstn_all. reflexivity.
  - exfalso. exact (flush_decides _ _ _ E).
  - reflexivity.
Qed.

Lemma lexes_steps : forall l s ts, lexes l s ts <->
  exists ts1 l' b' ts2, steps l s ts1 l' b' /\ stuck l' b' /\
    flushed l' b' = Some ts2 /\ ts = ts1 ++ ts2.
Proof.
  intros l s ts. split.
  - intros H. induction H as [l|l l' t rest ts Hv Hl Hf Hr Hlex IH].
    + exists [], l, [], [TEOF l]. repeat split; constructor.
    + apply reaches_push in Hr. subst l'.
      destruct (read_next_complete l t rest Hv Hl Hf) as [E|(-> & E1 & E2)].
      * destruct IH as (ts1 & l' & b' & ts2 & Hs & Hst & Hfl & ->).
        exists (t :: ts1), l', b', ts2. repeat split; auto.
        econstructor; [exact E|].
        rewrite firstn_app, Nat.sub_diag, firstn_O, app_nil_r, firstn_all.
        rewrite skipn_app, Nat.sub_diag, skipn_all. exact Hs.
      * rewrite app_nil_r. exists [], l, (tok_text t), [t; TEOF (loc_push_str l (tok_text t))].
        repeat split; [constructor|exact E1| |].
        -- unfold flushed. rewrite E2. destruct (tok_text t) eqn:Et; [|reflexivity].
           cbn in E2. discriminate.
        -- cbn [app]. f_equal. inversion Hlex; subst; [reflexivity|].
           destruct (tok_text t0) eqn:Et; [|discriminate].
           apply (f_equal (@length N)) in Et.
           destruct (read_next_complete (tok_loc t0) t0 [] H0 eq_refl I) as [Ec|(_ & _ & Ec)];
             apply read_next_sound in Ec as (? & _ & Hn & Hpos & _); cbn in Et; lia.
  - intros (ts1 & l' & b' & ts2 & Hs & Hst & Hfl & ->).
    induction Hs as [l b|l b t n ts l' b' Hrn Hs IH].
    + unfold flushed in Hfl. destruct b as [|c r]; [injection Hfl as <-; constructor|].
      remember (c :: r) as b eqn:Hcr. clear Hcr.
      destruct (read_next l b true) as [[[t n]|]|e|p|] eqn:E; try discriminate.
      assert (ts2 = [t; TEOF (loc_push_str l b)]) by congruence. subst ts2. clear Hfl.
      destruct (read_next_flush _ _ _ _ Hst E) as (_ & Hb).
      apply read_next_sound in E as (rest & _ & _ & _ & Hv & Hl & _).
      rewrite Hb. rewrite <- (app_nil_r (tok_text t)) at 1. cbn [app].
      econstructor; [exact Hv|exact Hl|exact I|apply push_str_reaches|constructor].
    + cbn [app]. destruct (read_next_split _ _ _ _ _ Hrn) as (Hf & Hb & _).
      apply read_next_sound in Hrn as Hd. destruct Hd as (rest & Hb2 & _ & _ & Hv & Hl & Hfo).
      rewrite Hb in Hb2. apply app_inv_head in Hb2. rewrite Hb.
      econstructor; [exact Hv|exact Hl| |apply push_str_reaches|].
      * rewrite Hb2. auto.
      * rewrite <- Hf at 1. auto.
Qed.

Lemma lexes_unique : forall l s ts1 ts2, lexes l s ts1 -> lexes l s ts2 -> ts1 = ts2.
Proof.
  intros l s ts1 ts2 H1 H2. apply lexes_steps in H1, H2.
  destruct H1 as (a1 & l1 & b1 & c1 & Hs1 & Hst1 & Hf1 & ->).
  destruct H2 as (a2 & l2 & b2 & c2 & Hs2 & Hst2 & Hf2 & ->).
  destruct (steps_det _ _ _ _ _ Hs1 ltac:(congruence) _ _ _ Hs2 ltac:(congruence)) as (-> & -> & ->).
  congruence.
Qed.

Lemma lexes_text : forall l s ts, lexes l s ts -> flat_map tok_text ts = s.
Proof.
  intros l s ts H. induction H; cbn [flat_map]; [reflexivity|]. rewrite IHlexes. reflexivity.
Qed.

Lemma lexes_locations : forall l s ts, lexes l s ts ->
  forall a t b, ts = a ++ t :: b -> reaches l (flat_map tok_text a) (tok_loc t).
Proof.
  intros l s ts H. induction H; intros a t0 b E.
  - destruct a as [|x a]; cbn in E; [|destruct a; discriminate].
    injection E as <- <-. apply (push_str_reaches l []).
  - destruct a as [|x a]; cbn in E; injection E as -> E.
    + subst. apply (push_str_reaches (tok_loc t0) []).
    + apply reaches_push in H2. subst l'. specialize (IHlexes a t0 b E).
      apply reaches_push in IHlexes. apply reaches_push. rewrite IHlexes.
      cbn [flat_map]. rewrite push_str_app. reflexivity.
Qed.

Lemma lexes_shape : forall l s ts, lexes l s ts ->
  exists ts0 l', ts = ts0 ++ [TEOF l'] /\ Forall valid_tok ts0.
Proof.
  intros l s ts H. induction H as [|l l' t rest ts Hv Hl Hf Hr Hlex (ts0 & l0 & -> & HF)].
  - exists [], l. split; [reflexivity|constructor].
  - exists (t :: ts0), l0. split; [reflexivity|constructor; assumption].
Qed.
