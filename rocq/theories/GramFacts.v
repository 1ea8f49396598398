(** The recursive descent against the grammar of [SpecGram]. *)
From Coq Require Import String List NArith Arith Bool Lia.
From Verif Require Import Base Ident Tokenizer Ast Lex SpecText TextFacts SpecTok TokFacts SpecGram.
Import ListNotations.
Open Scope nat_scope.

(** ** Meta-identifiers *)
Lemma norm_loop_app : forall x b y,
  norm_loop b (x ++ y) =
  (fst (norm_loop b x) ++ fst (norm_loop (snd (norm_loop b x)) y),
   snd (norm_loop (snd (norm_loop b x)) y)).
Proof.
  induction x as [|c x IH]; intros b y; cbn [app norm_loop].
  - cbn. destruct (norm_loop b y); reflexivity.
  - destruct (is_gap c); [destruct b; cbn [negb]|]; rewrite IH; [reflexivity| |].
    + destruct (norm_loop true x) as [o w]. cbn [fst snd]. reflexivity.
    + destruct (norm_loop false x) as [o w]. cbn [fst snd]. reflexivity.
Qed.

Lemma norm_loop_gaps : forall s b, s <> [] -> Forall gap_char s ->
  norm_loop b s = ((if b then [] else [32%N]), true).
Proof.
  assert (A : forall s, Forall gap_char s -> norm_loop true s = ([], true)).
  { induction s as [|c s IH]; intros H; [reflexivity|]. inversion H; subst.
    cbn [norm_loop]. apply is_gap_spec in H2. rewrite H2. cbn [negb]. auto. }
  intros [|c s] b Hne H; [congruence|]. inversion H; subst. cbn [norm_loop].
  apply is_gap_spec in H2. rewrite H2. destruct b; cbn [negb]; rewrite A by assumption; reflexivity.
Qed.

Definition wordish (c : char) : Prop := letter c \/ digit c.
Lemma wordish_not_gap : forall c, wordish c -> ~ gap_char c.
Proof. unfold wordish, letter, digit, gap_char. intros. lia. Qed.
Lemma wordish_not_space : forall c, wordish c -> is_rust_whitespace c = false.
Proof.
  intros c H. unfold wordish, letter, digit in H. apply not_true_false. unfold is_rust_whitespace.
  rewrite !orb_true_iff, !andb_true_iff, !N.leb_le, !N.eqb_eq. lia.
Qed.
Lemma meta_chars : forall l s, valid_tok (TMeta l s) -> s <> [] /\ Forall wordish s.
Proof.
  intros l s (c & r & -> & Hc & HF). split; [discriminate|].
  constructor; [left; exact Hc|exact HF].
Qed.

Lemma norm_loop_word : forall s b, s <> [] -> Forall wordish s -> norm_loop b s = (s, false).
Proof.
  intros s b Hs HF. pose proof (norm_loop_nongap s b [] Hs) as H.
  rewrite app_nil_r in H. rewrite H; [cbn; rewrite app_nil_r; reflexivity|].
  eapply Forall_impl; [|exact HF]. apply wordish_not_gap.
Qed.

Definition word_or_gapb (t : token) : bool :=
  match t with TMeta _ _ | TGap _ _ => true | _ => false end.

Lemma ends_with_space_app : forall a x, ends_with_space (a ++ [x]) = (x =? c_space)%N.
Proof. intros. unfold ends_with_space. rewrite rev_app_distr. reflexivity. Qed.

Lemma ends_word : forall a s, s <> [] -> Forall wordish s -> ends_with_space (a ++ s) = false.
Proof.
  intros a s Hne HF. destruct (exists_last Hne) as (s' & c & ->).
  rewrite app_assoc, ends_with_space_app. apply Forall_app in HF as (_ & HF).
  inversion HF; subst. unfold wordish, letter, digit in H1. apply N.eqb_neq. lia.
Qed.

(** The loop computes the normalising loop over the source text. *)
Lemma rmi_loop_norm : forall ts txt loc,
  Forall valid_tok (filter word_or_gapb ts) ->
  txt <> [] ->
  ends_with_space (fst (norm_loop true txt)) = snd (norm_loop true txt) ->
  exists W next, ts = W ++ next /\ Forall word_or_gap W /\
    (forall t r, next = t :: r -> word_or_gapb t = false) /\
    rmi_loop (fst (norm_loop true txt)) (Some loc) ts =
      (fst (norm_loop true (txt ++ flat_map tok_text W)), Some loc, next) /\
    ends_with_space (fst (norm_loop true (txt ++ flat_map tok_text W))) =
      snd (norm_loop true (txt ++ flat_map tok_text W)).
Proof.
  induction ts as [|t ts IH]; intros txt loc Hv Hne He.
  - exists [], []. cbn. rewrite app_nil_r. repeat split; auto. discriminate.
  - destruct (word_or_gapb t) eqn:Et.
    + cbn [filter] in Hv. rewrite Et in Hv. inversion Hv as [|? ? Hvt Hvts]; subst.
      assert (Hstep : rmi_loop (fst (norm_loop true txt)) (Some loc) (t :: ts) =
                      rmi_loop (fst (norm_loop true (txt ++ tok_text t))) (Some loc) ts /\
                      ends_with_space (fst (norm_loop true (txt ++ tok_text t))) =
                      snd (norm_loop true (txt ++ tok_text t))).
      { destruct t; try discriminate; cbn [tok_text rmi_loop]; rewrite norm_loop_app; cbn [fst snd].
        - apply meta_chars in Hvt as (Hs & HF).
          rewrite (norm_loop_word s) by auto. cbn [fst snd].
          split; [reflexivity|]. apply ends_word; auto.
        - destruct Hvt as (Hs & HF). rewrite (norm_loop_gaps s) by auto. cbn [fst snd].
          rewrite He. destruct (snd (norm_loop true txt)) eqn:Eb.
          + rewrite app_nil_r. split; [reflexivity|exact He].
          + split; [reflexivity|]. apply ends_with_space_app. }
      destruct Hstep as (-> & He').
      destruct (IH (txt ++ tok_text t) loc Hvts) as (W & next & -> & HW & Hn & Hr & He2); auto.
      { destruct txt; [congruence|discriminate]. }
      exists (t :: W), next. cbn [flat_map]. rewrite app_assoc. repeat split; auto.
      constructor; [|exact HW]. destruct t; try discriminate; exact I.
    + exists [], (t :: ts). cbn [flat_map app]. rewrite app_nil_r. repeat split; auto.
      * intros t0 r E. injection E as <- <-. exact Et.
      * destruct t; try discriminate; reflexivity.
Qed.

Lemma trim_start_word : forall c r, wordish c -> trim_start (c :: r) = c :: r.
Proof. intros c r H. cbn. rewrite (wordish_not_space c H). reflexivity. Qed.

Lemma trim_norm : forall c txt, wordish c ->
  Forall (fun x => wordish x \/ gap_char x) txt ->
  trim (fst (norm_loop true (c :: txt))) = normalized (c :: txt).
Proof.
  intros c txt Hc HF. unfold normalized.
  assert (Hg : is_gap c = false) by (apply is_gap_false, wordish_not_gap; exact Hc).
  cbn [norm_loop]. rewrite Hg.
  assert (A : forall txt b, Forall (fun x => wordish x \/ gap_char x) txt ->
    let '(o, w) := norm_loop b txt in
    (w = false -> o = [] /\ b = false \/ exists o' x, o = o' ++ [x] /\ wordish x) /\
    (w = true -> o = [] /\ b = true \/ exists o', o = o' ++ [32%N] /\
       (o' = [] /\ b = false \/ exists o2 x, o' = o2 ++ [x] /\ wordish x))).
  { clear. induction txt as [|x txt IH]; intros b HF; cbn [norm_loop].
    - split; intros ->; left; auto.
    - inversion HF as [|? ? Hx HF']; subst. destruct (is_gap x) eqn:Ex.
      + destruct b; cbn [negb].
        * apply (IH true HF').
        * specialize (IH true HF'). destruct (norm_loop true txt) as [o w].
          destruct IH as (IH1 & IH2). split; intros Hw.
          -- destruct (IH1 Hw) as [(-> & E)|(o' & y & -> & Hy)]; [discriminate|].
             right. exists (32%N :: o'), y. auto.
          -- right. destruct (IH2 Hw) as [(-> & _)|(o' & -> & [(-> & E)|(o2 & y & -> & Hy)])].
             ++ exists []. auto.
             ++ discriminate.
             ++ exists (32%N :: o2 ++ [y]). split; [reflexivity|]. right. exists (32%N :: o2), y. auto.
      + assert (Hwx : wordish x).
        { destruct Hx as [|Hx]; [assumption|]. apply is_gap_spec in Hx. congruence. }
        specialize (IH false HF'). destruct (norm_loop false txt) as [o w].
        destruct IH as (IH1 & IH2). split; intros Hw; right.
        * destruct (IH1 Hw) as [(-> & _)|(o' & y & -> & Hy)].
          -- exists [], x. auto.
          -- exists (x :: o'), y. auto.
        * destruct (IH2 Hw) as [(_ & E)|(o' & -> & [(-> & _)|(o2 & y & -> & Hy)])]; [discriminate| |].
          -- exists [x]. split; [reflexivity|]. right. exists [], x. auto.
          -- exists (x :: o2 ++ [y]). split; [reflexivity|]. right. exists (x :: o2), y. auto. }
  specialize (A txt false HF). destruct (norm_loop false txt) as [o w]. cbn [fst].
  unfold trim. rewrite trim_start_word by exact Hc.
  destruct A as (A1 & A2). destruct w.
  - cbn [andb negb]. destruct (A2 eq_refl) as [(_ & E)|(o' & -> & Ho)]; [discriminate|].
    change (c :: o' ++ [32%N]) with ((c :: o') ++ [32%N]).
    rewrite firstn_last, rev_app_distr. cbn [rev app].
    assert (Ht : exists y z, rev o' ++ [c] = y :: z /\ wordish y).
    { destruct Ho as [(-> & _)|(o2 & x & -> & Hx)].
      - exists c, []. auto.
      - rewrite rev_app_distr. cbn. eauto. }
    destruct Ht as (y & z & Ey & Hy). rewrite Ey.
    change (trim_start (32%N :: y :: z)) with (trim_start (y :: z)).
    rewrite trim_start_word by exact Hy. rewrite <- Ey, rev_app_distr, rev_involutive. reflexivity.
  - cbn [andb]. assert (Ht : exists y z, rev (c :: o) = y :: z /\ wordish y).
    { destruct (A1 eq_refl) as [(-> & _)|(o2 & x & -> & Hx)].
      - exists c, []. auto.
      - cbn [rev]. rewrite rev_app_distr. cbn. eauto. }
    destruct Ht as (y & z & Ey & Hy). rewrite Ey.
    rewrite trim_start_word by exact Hy. rewrite <- Ey, rev_involutive. reflexivity.
Qed.

(** A run of words and gaps that starts with a word: the identifier, then gaps. *)
Lemma split_last_word : forall W, Forall word_or_gap W ->
  exists w gaps, W = w ++ gaps /\ Forall (fun t => is_gap_token t = true) gaps /\
    (w = [] \/ exists w' l' s', w = w' ++ [TMeta l' s']).
Proof.
  induction W as [|t W IH] using rev_ind; intros H.
  - exists [], []. auto.
  - apply Forall_app in H as (HW & Ht). inversion Ht as [|? ? Ht' _]; subst.
    destruct t; try (destruct Ht'; fail).
    + exists (W ++ [TMeta l s]), []. rewrite app_nil_r. repeat split; auto. right. eauto.
    + destruct (IH HW) as (w & gaps & -> & Hg & Hw).
      exists w, (gaps ++ [TGap l s]). rewrite app_assoc. repeat split; auto.
      apply Forall_app. split; [exact Hg|]. repeat constructor.
Qed.

Lemma words_gaps_tail : forall s ws, words_of s ws -> forall g, Forall gap_char g ->
  words_of (s ++ g) ws.
Proof.
  intros s ws H. induction H as [|c s ws Hc H IH|w s ws Hne Hw Hs H IH]; intros g Hg.
  - cbn. induction Hg; constructor; auto.
  - cbn. constructor; auto.
  - rewrite <- app_assoc. constructor; auto.
    destruct Hs as [->|(c & s' & -> & Hc)].
    + destruct g as [|x g]; [left; reflexivity|]. inversion Hg; subst. right. exists x, g. auto.
    + right. exists c, (s' ++ g). auto.
Qed.

Lemma gap_tokens_text : forall gaps, Forall valid_tok gaps ->
  Forall (fun t => is_gap_token t = true) gaps -> Forall gap_char (flat_map tok_text gaps).
Proof.
  induction gaps as [|t gaps IH]; intros Hv Hg; [constructor|].
  inversion Hv; inversion Hg; subst. cbn [flat_map]. apply Forall_app. split; [|auto].
  destruct t; try discriminate. destruct H1. assumption.
Qed.

Lemma word_gap_text : forall W, Forall valid_tok W -> Forall word_or_gap W ->
  Forall (fun x => wordish x \/ gap_char x) (flat_map tok_text W).
Proof.
  induction W as [|t W IH]; intros Hv HW; [constructor|].
  inversion Hv as [|? ? Hvt Hv']; inversion HW as [|? ? Hwt HW']; subst.
  cbn [flat_map]. apply Forall_app. split; [|auto].
  destruct t; try (destruct Hwt; fail).
  - apply meta_chars in Hvt as (_ & HF). eapply Forall_impl; [|exact HF]. auto.
  - destruct Hvt as (_ & HF). eapply Forall_impl; [|exact HF]. auto.
Qed.

Lemma filter_valid : forall p ts, Forall valid_tok ts -> Forall valid_tok (filter p ts).
Proof.
  intros p ts H. apply Forall_forall. intros x Hx. apply filter_In in Hx as (Hx & _).
  rewrite Forall_forall in H. auto.
Qed.

(** [read_meta_identifier] on a run that starts with a word. *)
Lemma rmi_sound : forall l s r,
  Forall valid_tok (filter word_or_gapb (TMeta l s :: r)) ->
  exists w gaps id next, TMeta l s :: r = w ++ gaps ++ next /\ g_ident w l id /\
    Forall (fun t => is_gap_token t = true) gaps /\
    (forall t r', next = t :: r' -> word_or_gapb t = false) /\
    read_meta_identifier (TMeta l s :: r) = (id, Some l, next).
Proof.
  intros l s r Hv. unfold read_meta_identifier. cbn [skip_trivia is_gap_token is_comment orb rmi_loop app].
  cbn [filter word_or_gapb] in Hv. inversion Hv as [|? ? Hvm Hvr]; subst.
  apply meta_chars in Hvm as Hs. destruct Hs as (Hs & HF).
  assert (En : norm_loop true s = (s, false)).
  { apply norm_loop_word; auto. }
  destruct (rmi_loop_norm r s l Hvr Hs) as (W & next & -> & HW & Hn & Hr & _).
  { rewrite En. cbn [fst snd]. apply (ends_word [] s); auto. }
  rewrite En in Hr at 1. cbn [fst] in Hr. rewrite Hr.
  assert (HvW : Forall valid_tok W).
  { assert (E : filter word_or_gapb W = W).
    { clear - HW. induction HW as [|t W Ht HW IH]; [reflexivity|].
      cbn. destruct t; try (destruct Ht; fail); cbn; f_equal; exact IH. }
    rewrite filter_app, E in Hvr. apply Forall_app in Hvr. tauto. }
  destruct s as [|c s]; [congruence|]. inversion HF as [|? ? Hc HFs]; subst.
  cbn [app]. rewrite trim_norm; [|exact Hc|].
  2:{ apply Forall_app. split; [eapply Forall_impl; [|exact HFs]; auto|apply word_gap_text; auto]. }
  destruct (split_last_word W HW) as (w & gaps & -> & Hg & Hlast).
  apply Forall_app in HvW as (Hvw & Hvg).
  destruct (words_total (flat_map tok_text (TMeta l (c :: s) :: w))) as (ws & Hws).
  exists (TMeta l (c :: s) :: w), gaps, (unwords ws), next.
  split; [cbn [app]; rewrite <- app_assoc; reflexivity|].
  split.
  { constructor; [|exact Hlast|exact Hws]. apply Forall_app in HW. tauto. }
  split; [exact Hg|]. split; [exact Hn|].
  f_equal. f_equal. apply normalized_words.
  pose proof (words_gaps_tail _ _ Hws _ (gap_tokens_text gaps Hvg Hg)) as Hx.
  cbn [flat_map tok_text] in Hx. rewrite flat_map_app. rewrite <- app_assoc in Hx. exact Hx.
Qed.

Lemma rmi_split : forall W1 n1 W2 n2,
  Forall word_or_gap W1 -> Forall word_or_gap W2 ->
  (forall t r, n1 = t :: r -> word_or_gapb t = false) ->
  (forall t r, n2 = t :: r -> word_or_gapb t = false) ->
  W1 ++ n1 = W2 ++ n2 -> W1 = W2 /\ n1 = n2.
Proof.
  induction W1 as [|t W1 IH]; intros n1 [|t2 W2] n2 H1 H2 N1 N2 E; cbn [app] in E.
  - auto.
  - subst n1. specialize (N1 _ _ eq_refl). inversion H2; subst. destruct t2; try discriminate; destruct H3.
  - subst n2. specialize (N2 _ _ eq_refl). inversion H1; subst. destruct t; try discriminate; destruct H3.
  - injection E as <- E. inversion H1; inversion H2; subst.
    destruct (IH _ _ _ H4 H8 N1 N2 E) as (-> & ->). auto.
Qed.

Lemma gaps_word_or_gap : forall g, Forall (fun t => is_gap_token t = true) g -> Forall word_or_gap g.
Proof. intros g H. eapply Forall_impl; [|exact H]. intros [] E; try discriminate; exact I. Qed.

Lemma last_word_split : forall w1 g1 w2 g2,
  Forall (fun t => is_gap_token t = true) g1 -> Forall (fun t => is_gap_token t = true) g2 ->
  (exists w' l' s', w1 = w' ++ [TMeta l' s']) -> (exists w' l' s', w2 = w' ++ [TMeta l' s']) ->
  w1 ++ g1 = w2 ++ g2 -> w1 = w2 /\ g1 = g2.
Proof.
  intros w1 g1 w2 g2 H1 H2 (a1 & l1 & s1 & ->) (a2 & l2 & s2 & ->).
  revert g2 H2. induction g1 as [|x g1 IH] using rev_ind; intros g2 H2 E.
  - destruct g2 as [|y g2 _] using rev_ind; [rewrite !app_nil_r in E; auto|exfalso].
    rewrite app_nil_r, app_assoc in E. apply app_inj_tail in E as (_ & <-).
    apply Forall_app in H2 as (_ & H2). inversion H2; subst. discriminate.
  - apply Forall_app in H1 as (H1 & Hx).
    destruct g2 as [|y g2 _] using rev_ind.
    + exfalso. rewrite app_nil_r, app_assoc in E. apply app_inj_tail in E as (_ & ->).
      inversion Hx; subst. discriminate.
    + rewrite !app_assoc in E. apply app_inj_tail in E as (E & ->).
      apply Forall_app in H2 as (H2 & _). destruct (IH H1 g2 H2 E) as (-> & ->). auto.
Qed.

Lemma g_ident_word_or_gap : forall w l id, g_ident w l id -> Forall word_or_gap w.
Proof. intros w l id H. destruct H. constructor; [exact I|assumption]. Qed.
Lemma g_ident_last : forall w l id, g_ident w l id -> exists w' l' s', w = w' ++ [TMeta l' s'].
Proof.
  intros w l id H. destruct H as [l s w ws _ [->|(w' & l' & s' & ->)] _].
  - exists [], l, s. reflexivity.
  - exists (TMeta l s :: w'), l', s'. reflexivity.
Qed.

Lemma rmi_complete : forall w l id gaps next,
  Forall valid_tok (filter word_or_gapb (w ++ gaps ++ next)) ->
  g_ident w l id -> Forall (fun t => is_gap_token t = true) gaps ->
  (forall t r', next = t :: r' -> word_or_gapb t = false) ->
  read_meta_identifier (w ++ gaps ++ next) = (id, Some l, next).
Proof.
  intros w l id gaps next Hv Hid Hg Hn.
  assert (Hshape : exists s r, w ++ gaps ++ next = TMeta l s :: r).
  { destruct Hid. eexists _, _. reflexivity. }
  destruct Hshape as (s & r & E). rewrite E in Hv.
  destruct (rmi_sound l s r Hv) as (w2 & gaps2 & id2 & next2 & E2 & Hid2 & Hg2 & Hn2 & Hr).
  rewrite E, Hr. rewrite <- E in E2. rewrite !app_assoc in E2.
  apply rmi_split in E2; auto.
  - destruct E2 as (E2 & ->). apply last_word_split in E2; eauto using g_ident_last.
    destruct E2 as (-> & _). f_equal. f_equal.
    destruct Hid as [l0 s0 w0 ws Hw0 _ Hws]. inversion Hid2 as [l3 s3 w3 ws3 Hw3 _ Hws3 Es El Ei]. subst.
    f_equal. exact (words_unique _ _ Hws3 _ Hws).
  - apply Forall_app. split; [eapply g_ident_word_or_gap; eassumption|apply gaps_word_or_gap; assumption].
  - apply Forall_app. split; [eapply g_ident_word_or_gap; eassumption|apply gaps_word_or_gap; assumption].
Qed.

(** ** Trivia *)
Definition triviab (t : token) : bool := is_gap_token t || is_comment t.
Lemma triviab_spec : forall t, triviab t = true <-> trivia t.
Proof. intros []; cbn; split; intros H; try exact I; try reflexivity; try discriminate; destruct H. Qed.

Lemma skip_split : forall ts, exists tr, ts = tr ++ skip_trivia ts /\ all_trivia tr /\
  (forall t r, skip_trivia ts = t :: r -> triviab t = false).
Proof.
  induction ts as [|t ts (tr & E & Ht & Hn)]; [exists []; repeat split; [constructor|discriminate]|].
  cbn [skip_trivia]. fold (triviab t). destruct (triviab t) eqn:Et.
  - exists (t :: tr). cbn [app]. split; [f_equal; exact E|]. split; [|exact Hn].
    constructor; [apply triviab_spec; exact Et|exact Ht].
  - exists []. split; [reflexivity|]. split; [constructor|].
    intros t0 r E0. injection E0 as <- <-. exact Et.
Qed.

Lemma skip_app : forall tr ts, all_trivia tr -> skip_trivia (tr ++ ts) = skip_trivia ts.
Proof.
  induction tr as [|t tr IH]; intros ts H; [reflexivity|]. inversion H; subst.
  cbn [app skip_trivia]. fold (triviab t). apply triviab_spec in H2. rewrite H2. auto.
Qed.
Lemma skip_skip : forall ts, skip_trivia (skip_trivia ts) = skip_trivia ts.
Proof.
  intros ts. destruct (skip_split ts) as (tr & E & Ht & Hn).
  destruct (skip_trivia ts) as [|t r] eqn:Es; [reflexivity|].
  cbn [skip_trivia]. fold (triviab t). rewrite (Hn t r eq_refl). reflexivity.
Qed.
Lemma skip_length : forall ts, length (skip_trivia ts) <= length ts.
Proof. intros ts. destruct (skip_split ts) as (tr & E & _). rewrite E at 2. rewrite app_length. lia. Qed.
Lemma skip_cons : forall t r, triviab t = false -> skip_trivia (t :: r) = t :: r.
Proof. intros t r H. cbn [skip_trivia]. fold (triviab t). rewrite H. reflexivity. Qed.

Definition vt (ts : list token) : Prop := Forall valid_tok (filter word_or_gapb ts).
Lemma vt_app : forall a b, vt (a ++ b) <-> vt a /\ vt b.
Proof. intros. unfold vt. rewrite filter_app. apply Forall_app. Qed.
Lemma vt_cons : forall a b, vt (a :: b) -> vt b.
Proof. intros a b H. apply (vt_app [a]) in H. tauto. Qed.
Lemma vt_skip : forall ts, vt ts -> vt (skip_trivia ts).
Proof. intros ts H. destruct (skip_split ts) as (tr & E & _). rewrite E in H. apply vt_app in H. tauto. Qed.

Lemma is_terminator_spec : forall t, is_terminator t = true <-> terminator t.
Proof. intros []; cbn; split; intros H; try exact I; try reflexivity; try discriminate; destruct H. Qed.

(** ** Numbers *)
Lemma numeral_dec : forall s, dec_value s = numeral s.
Proof.
  intros s. unfold dec_value, numeral. generalize 0%N as a.
  induction s as [|c s IH]; intros a; cbn [fold_left numeral_from]; [reflexivity|].
  rewrite IH. f_equal. lia.
Qed.
Lemma parse_u32_some : forall s n, parse_u32 s = Some n <-> n = numeral s /\ (numeral s <= u32_max)%N.
Proof.
  intros s n. unfold parse_u32. rewrite numeral_dec.
  destruct (N.leb_spec (numeral s) u32_max); split; intros E; try discriminate.
  - injection E as <-. auto.
  - destruct E as (-> & _). reflexivity.
  - destruct E as (_ & E). lia.
Qed.

(** ** Matching brackets *)
Lemma find_close_split : forall o c ts d a b, find_close o c d ts = Some (a, b) ->
  exists t, ts = a ++ t :: b /\ c t = true /\ o t = false.
Proof.
  induction ts as [|t ts IH]; intros d a b H; cbn [find_close] in H; [discriminate|].
  assert (K : forall d', match find_close o c d' ts with Some (a, b) => Some (t :: a, b) | None => None end
              = Some (a, b) -> exists t0, t :: ts = a ++ t0 :: b /\ c t0 = true /\ o t0 = false).
  { intros d' E. destruct (find_close o c d' ts) as [[a' b']|] eqn:Ef; [|discriminate].
    injection E as <- <-. destruct (IH _ _ _ Ef) as (t0 & -> & Hc). exists t0. auto. }
  destruct (o t) eqn:Eo; [exact (K _ H)|].
  destruct (c t) eqn:Ec; [|exact (K _ H)].
  destruct d; [|exact (K _ H)]. injection H as <- <-. exists t. auto.
Qed.

(** ** Soundness *)
Lemma g_factor_tail : forall w f tr, g_factor w f -> all_trivia tr -> g_factor (w ++ tr) f.
Proof.
  intros w f tr H Ht. destruct H as [tr1 w tr2 p H1 H2 H3|tr1 l s tr2 l' tr3 w tr4 p H1 H2 H3 H4 H5 H6].
  - rewrite <- !app_assoc. constructor; auto. apply Forall_app. auto.
  - rewrite <- !app_assoc. cbn [app]. rewrite <- !app_assoc. cbn [app]. rewrite <- !app_assoc.
    apply g_times; auto. apply Forall_app. auto.
Qed.
Lemma g_term_tail : forall w t tr, g_term w t -> all_trivia tr -> g_term (w ++ tr) t.
Proof.
  intros w t tr H Ht. destruct H as [w f H|w f l w' e H1 H2].
  - constructor. apply g_factor_tail; auto.
  - rewrite <- app_assoc. cbn [app]. constructor; auto. apply g_factor_tail; auto.
Qed.

Definition ends_at (rest : list token) : Prop :=
  rest = [] \/ exists t r, rest = t :: r /\ terminator t.
Definition ends_or_sep (rest : list token) : Prop :=
  rest = [] \/ exists t r, rest = t :: r /\ (terminator t \/ exists l c, t = TDefSep l c).

Lemma bind_ok : forall {A B} (m : res A) (f : A -> res B) b,
  bind m f = Ok b -> exists a, m = Ok a /\ f a = Ok b.
Proof. intros A B [a| | |] f b H; try discriminate. eauto. Qed.

(** Inside brackets there is no terminator. *)
Lemma enclosed_whole : forall w rest d, ends_at rest -> g_defs w d ->
  existsb is_terminator (w ++ rest) = false -> rest = [].
Proof.
  intros w rest d [->|(t & r & -> & Ht)] _ He; [reflexivity|].
  rewrite existsb_app in He. cbn in He. apply is_terminator_spec in Ht. rewrite Ht in He.
  rewrite orb_true_r in He. discriminate.
Qed.

Definition one_end (ts : list token) : Prop :=
  existsb is_terminator ts = false \/
  exists a t, ts = a ++ [t] /\ terminator t /\ existsb is_terminator a = false.
Lemma one_end_tail : forall a b, one_end (a ++ b) -> one_end b.
Proof.
  induction a as [|x a IH]; intros b H; [exact H|]. apply IH. clear IH.
  destruct H as [H|(c & t & E & Ht & H)].
  - left. cbn in H. apply orb_false_iff in H. tauto.
  - destruct c as [|y c]; cbn [app] in E.
    + injection E as -> E. apply app_eq_nil in E as (-> & ->). left. reflexivity.
    + injection E as -> E. right. exists c, t. cbn in H. apply orb_false_iff in H. tauto.
Qed.
Lemma one_end_front : forall a b, one_end (a ++ b) -> b <> [] -> existsb is_terminator a = false.
Proof.
  intros a b [H|(c & t & E & Ht & H)] Hb.
  - rewrite existsb_app in H. apply orb_false_iff in H. tauto.
  - destruct (exists_last Hb) as (b' & y & ->). rewrite app_assoc in E.
    apply app_inj_tail in E as (<- & _). rewrite existsb_app in H. apply orb_false_iff in H. tauto.
Qed.

Lemma sound_all : forall f,
  (forall all ts d, one_end ts -> vt ts -> read_definition_list f all ts = Ok d ->
     exists w rest, ts = w ++ rest /\ g_defs w d /\ ends_at rest) /\
  (forall all ts d next, one_end ts -> vt ts -> read_single_definition f all ts = Ok (d, next) ->
     exists w, ts = w ++ next /\ g_single w d /\ ends_or_sep next) /\
  (forall all ts t next, one_end ts -> vt ts -> read_syntactic_term f all ts = Ok (t, next) ->
     exists w, ts = w ++ next /\ g_term w t) /\
  (forall all ts x next, one_end ts -> vt ts -> read_syntactic_factor f all ts = Ok (x, next) ->
     exists w, ts = w ++ next /\ g_factor w x) /\
  (forall all ts p next, one_end ts -> vt ts -> read_syntactic_primary f all ts = Ok (p, next) ->
     exists tr1 w tr2, ts = tr1 ++ w ++ tr2 ++ next /\
       all_trivia tr1 /\ g_primary w p /\ all_trivia tr2).
Proof.
  induction f as [|f (IHdl & IHsd & IHtm & IHfa & IHpr)];
    [repeat split; intros; discriminate|].
  split; [|split; [|split; [|split]]].
  - (* definition list *)
    intros all ts d Ho Hv H. cbn [read_definition_list] in H.
    apply bind_ok in H as ((sd & next) & Esd & H).
    destruct (IHsd _ _ _ _ Ho Hv Esd) as (w & -> & Hg & He).
    pose proof (one_end_tail _ _ Ho) as Ho2. apply vt_app in Hv as Hv2. destruct Hv2 as (_ & Hv2).
    destruct He as [->|(t & r & -> & Ht)].
    + cbn [skip_trivia] in H. injection H as <-. exists w, []. split; [reflexivity|].
      split; [constructor; exact Hg|left; reflexivity].
    + assert (Et : triviab t = false).
      { destruct Ht as [Ht|(l & c & ->)]; [|reflexivity]. destruct t; try reflexivity; destruct Ht. }
      rewrite (skip_cons t r Et) in H. destruct (is_terminator t) eqn:Eterm.
      * injection H as <-. exists w, (t :: r). split; [reflexivity|].
        split; [constructor; exact Hg|right]. apply is_terminator_spec in Eterm. eauto.
      * destruct Ht as [Ht|(l & c & ->)]; [apply is_terminator_spec in Ht; congruence|].
        apply bind_ok in H as (ds & Eds & H). injection H as <-.
        destruct (IHdl _ _ _ (one_end_tail [_] r Ho2) (vt_cons _ _ Hv2) Eds) as (w' & rest & -> & Hg' & He').
        exists (w ++ TDefSep l c :: w'), rest. split; [rewrite <- app_assoc; reflexivity|].
        split; [constructor; assumption|exact He'].
  - (* single definition *)
    intros all ts d next Ho Hv H. cbn [read_single_definition] in H.
    apply bind_ok in H as ((tm & nx) & Etm & H).
    destruct (IHtm _ _ _ _ Ho Hv Etm) as (w & -> & Hg).
    pose proof (one_end_tail _ _ Ho) as Ho2. apply vt_app in Hv as Hv2. destruct Hv2 as (_ & Hv2).
    destruct (skip_split nx) as (tr & En & Htr & Hn).
    destruct (skip_trivia nx) as [|t r] eqn:Es.
    + injection H as <- <-. exists (w ++ tr). rewrite app_nil_r in En. subst nx.
      split; [rewrite app_nil_r; reflexivity|].
      split; [constructor; apply g_term_tail; assumption|left; reflexivity].
    + subst nx. pose proof (one_end_tail _ _ Ho2) as Ho3. apply vt_app in Hv2 as Hv3. destruct Hv3 as (_ & Hv3).
      assert (Hstop' : Ok ([tm], t :: r) = Ok (d, next) -> ends_or_sep (t :: r) ->
                exists w0, w ++ tr ++ t :: r = w0 ++ next /\ g_single w0 d /\ ends_or_sep next).
      { intros E Hes. injection E as <- <-. exists (w ++ tr). split; [rewrite app_assoc; reflexivity|].
        split; [constructor; apply g_term_tail; assumption|exact Hes]. }
      destruct t; cbn [is_terminator] in H; try discriminate.
      * (* concat *)
        apply bind_ok in H as ((tms & nx) & Ets & H). injection H as <- <-.
        destruct (IHsd _ _ _ _ (one_end_tail [_] r Ho3) (vt_cons _ _ Hv3) Ets) as (w' & -> & Hg' & He').
        exists ((w ++ tr) ++ TConcat l :: w'). split; [rewrite <- !app_assoc; reflexivity|].
        split; [|exact He']. constructor; [apply g_term_tail; assumption|exact Hg'].
      * apply Hstop'; [exact H|]. right. eexists _, _. split; [reflexivity|right; eauto].
      * apply Hstop'; [exact H|]. right. eexists _, _. split; [reflexivity|left; exact I].
      * apply Hstop'; [exact H|]. right. eexists _, _. split; [reflexivity|left; exact I].
  - (* term *)
    intros all ts t next Ho Hv H. cbn [read_syntactic_term] in H.
    apply bind_ok in H as ((fa & nx) & Efa & H).
    destruct (IHfa _ _ _ _ Ho Hv Efa) as (w & -> & Hg).
    pose proof (one_end_tail _ _ Ho) as Ho2. apply vt_app in Hv as Hv2. destruct Hv2 as (_ & Hv2).
    destruct (skip_split nx) as (tr & En & Htr & Hn).
    remember (skip_trivia nx) as sk eqn:Es.
    assert (Hplain : Ok (Term fa None, sk) = Ok (t, next) ->
              exists w0, w ++ nx = w0 ++ next /\ g_term w0 t).
    { intros E. injection E as <- <-. exists (w ++ tr). rewrite En at 1. split; [rewrite app_assoc; reflexivity|].
      constructor. apply g_factor_tail; assumption. }
    destruct sk as [|t0 r]; [apply Hplain; exact H|].
    rewrite En in Ho2, Hv2. pose proof (one_end_tail _ _ Ho2) as Ho3. apply vt_app in Hv2 as Hv3. destruct Hv3 as (_ & Hv3).
    destruct t0; try (apply Hplain; exact H).
    apply bind_ok in H as ((ex & nx2) & Eex & H). injection H as <- <-.
    destruct (IHfa _ _ _ _ (one_end_tail [_] r Ho3) (vt_cons _ _ Hv3) Eex) as (w' & -> & Hg').
    exists ((w ++ tr) ++ TExcept l :: w'). split; [rewrite En, <- !app_assoc; reflexivity|].
    constructor; [apply g_factor_tail; assumption|exact Hg'].
  - (* factor *)
    intros all ts x next Ho Hv H. cbn [read_syntactic_factor] in H.
    apply bind_ok in H as ((n & nx) & En & H).
    apply bind_ok in H as ((p & nx2) & Ep & H). injection H as <- <-.
    destruct (skip_split ts) as (tr & Ets & Htr & Hn).
    remember (skip_trivia ts) as sk eqn:Es. rewrite Ets in Ho, Hv |- *.
    pose proof (one_end_tail _ _ Ho) as Ho2. apply vt_app in Hv as Hv2. destruct Hv2 as (_ & Hv2).
    assert (Honce : Ok (1%N, sk) = Ok (n, nx) -> exists w, tr ++ sk = w ++ nx2 /\ g_factor w (Factor n p)).
    { intros E. injection E as <- <-.
      destruct (IHpr _ _ _ _ Ho2 Hv2 Ep) as (tr1 & w & tr2 & -> & H1 & H2 & H3).
      exists ((tr ++ tr1) ++ w ++ tr2). split; [rewrite <- !app_assoc; reflexivity|].
      constructor; auto. apply Forall_app. auto. }
    destruct sk as [|t0 r]; [apply Honce; exact En|].
    destruct t0; try (apply Honce; exact En).
    destruct (parse_u32 s) as [m|] eqn:Em; [|discriminate].
    apply parse_u32_some in Em as (-> & Hle).
    destruct (skip_split r) as (tr2 & Er & Htr2 & Hn2).
    destruct (skip_trivia r) as [|t1 r2] eqn:Es2; [discriminate|].
    destruct t1; try discriminate. injection En as <- <-.
    rewrite Er in Ho2, Hv2 |- *.
    apply (one_end_tail [_]) in Ho2. apply one_end_tail in Ho2. apply (one_end_tail [_]) in Ho2.
    apply vt_cons in Hv2. apply vt_app in Hv2 as (_ & Hv2). apply vt_cons in Hv2.
    destruct (skip_split r2) as (tr3 & Er2 & Htr3 & Hn3).
    pose proof (vt_skip _ Hv2) as Hv3. rewrite Er2 in Ho2. apply one_end_tail in Ho2.
    destruct (IHpr _ _ _ _ Ho2 Hv3 Ep) as (tr4 & w & tr5 & E4 & H1 & H2 & H3).
    exists (tr ++ TInteger l s :: tr2 ++ TRepetition l0 :: (tr3 ++ tr4) ++ w ++ tr5). split.
    { rewrite Er2, E4. rewrite <- !app_assoc. cbn [app]. rewrite <- !app_assoc. cbn [app]. rewrite <- !app_assoc. reflexivity. }
    constructor; auto. apply Forall_app. auto.
  - (* primary *)
    intros all ts p next Ho Hv H. cbn [read_syntactic_primary] in H.
    destruct (skip_split ts) as (tr & Ets & Htr & Hn).
    remember (skip_trivia ts) as sk eqn:Es. rewrite Ets in Ho, Hv |- *.
    pose proof (one_end_tail _ _ Ho) as Ho2. apply vt_app in Hv as Hv2. destruct Hv2 as (_ & Hv2).
    assert (Hplain : forall w tr2, sk = w ++ tr2 ++ next -> g_primary w p -> all_trivia tr2 ->
       exists tr1 w tr2, tr ++ sk = tr1 ++ w ++ tr2 ++ next /\ all_trivia tr1 /\ g_primary w p /\ all_trivia tr2).
    { intros w tr2 -> Hg Ht2. exists tr, w, tr2. auto. }
    assert (Henc : forall o c t0 r, sk = t0 :: r ->
       forall (mk : definition_list -> primary),
       bind (match find_close o c 0 r with
             | Some (sub, nx) => let? d := read_definition_list f sub sub in Ok (d, nx)
             | None => Err {| e_loc := tok_loc t0; e_msg := MNotClosed (tok_name t0) (tok_debug t0) |}
             end) (fun '(d, nx) => Ok (mk d, nx)) = Ok (p, next) ->
       exists w d tc, r = w ++ tc :: next /\ c tc = true /\ g_defs w d /\ p = mk d).
    { intros o c t0 r -> mk E. apply bind_ok in E as ((d & nx) & E & E2). injection E2 as <- <-.
      destruct (find_close o c 0 r) as [[sub nx']|] eqn:Ef; [|discriminate].
      apply bind_ok in E as (d' & E & E2). injection E2 as <- <-.
      apply find_close_split in Ef as (tc & -> & Hc & _).
      apply (one_end_tail [t0]) in Ho2. apply vt_cons in Hv2. apply vt_app in Hv2 as (Hvs & _).
      apply one_end_front in Ho2; [|discriminate].
      destruct (IHdl _ _ _ (or_introl Ho2) Hvs E) as (w & rest & Esub & Hg & He).
      rewrite Esub in Ho2. apply (enclosed_whole w rest d' He Hg) in Ho2. subst rest. rewrite app_nil_r in Esub. subst sub.
      exists w, d', tc. auto. }
    destruct sk as [|t0 r].
    { injection H as <- <-. apply (Hplain [] []); [reflexivity|constructor|constructor]. }
    assert (Hempty : Ok (PEmpty (tok_loc t0), t0 :: r) = Ok (p, next) ->
       exists tr1 w tr2, tr ++ t0 :: r = tr1 ++ w ++ tr2 ++ next /\ all_trivia tr1 /\ g_primary w p /\ all_trivia tr2).
    { intros E. injection E as <- <-. apply (Hplain [] []); [reflexivity|constructor|constructor]. }
    destruct t0; try (apply Hempty; exact H).
    + (* option *)
      destruct (str_eqb s [c_lpar; c_slash] && _); [discriminate|].
      destruct (Henc _ _ _ _ eq_refl _ H) as (w & d & tc & -> & Hc & Hg & ->).
      destruct tc; try discriminate.
      apply (Hplain (TStartOption l s :: w ++ [TEndOption l0 s0]) []); [|constructor; exact Hg|constructor].
      cbn [app]. rewrite <- app_assoc. reflexivity.
    + destruct (str_eqb s [c_lpar; c_colon] && _); [discriminate|].
      destruct (Henc _ _ _ _ eq_refl _ H) as (w & d & tc & -> & Hc & Hg & ->).
      destruct tc; try discriminate.
      apply (Hplain (TStartRepeat l s :: w ++ [TEndRepeat l0 s0]) []); [|constructor; exact Hg|constructor].
      cbn [app]. rewrite <- app_assoc. reflexivity.
    + destruct (Henc _ _ _ _ eq_refl _ H) as (w & d & tc & -> & Hc & Hg & ->).
      destruct tc; try discriminate.
      apply (Hplain (TStartGroup l :: w ++ [TEndGroup l0]) []); [|constructor; exact Hg|constructor].
      cbn [app]. rewrite <- app_assoc. reflexivity.
    + (* meta *)
      destruct (rmi_sound l s r Hv2) as (w & gaps & id & nx & E & Hid & Hg & _ & Hr).
      rewrite Hr in H. injection H as <- <-.
      apply (Hplain w gaps); [exact E|constructor; exact Hid|].
      eapply Forall_impl; [|exact Hg]. intros [] E0; try discriminate; exact I.
    + injection H as <- <-. apply (Hplain [TTerminal l s q] []); [reflexivity|constructor|constructor].
    + injection H as <- <-. apply (Hplain [TSpecial l s] []); [reflexivity|constructor|constructor].
Qed.

Scheme g_primary_mut := Minimality for g_primary Sort Prop
  with g_factor_mut := Minimality for g_factor Sort Prop
  with g_term_mut := Minimality for g_term Sort Prop
  with g_single_mut := Minimality for g_single Sort Prop
  with g_defs_mut := Minimality for g_defs Sort Prop.
Combined Scheme g_all_mut from
  g_primary_mut, g_factor_mut, g_term_mut, g_single_mut, g_defs_mut.

(** ** Brackets inside a derived run match *)
Definition neutral (o c : token -> bool) (w : list token) : Prop :=
  forall d r, find_close o c d (w ++ r) =
    match find_close o c d r with Some (a, b) => Some (w ++ a, b) | None => None end.
Lemma neutral_nil : forall o c, neutral o c [].
Proof. intros o c d r. cbn [app]. destruct (find_close o c d r) as [[a b]|]; reflexivity. Qed.
Lemma neutral_app : forall o c a b, neutral o c a -> neutral o c b -> neutral o c (a ++ b).
Proof.
  intros o c a b Ha Hb d r. rewrite <- app_assoc, Ha, Hb.
  destruct (find_close o c d r) as [[x y]|]; [rewrite app_assoc|]; reflexivity.
Qed.
Lemma neutral_one : forall o c t, o t = false -> c t = false -> neutral o c [t].
Proof. intros o c t Ho Hc d r. cbn [app find_close]. rewrite Ho, Hc. reflexivity. Qed.
Lemma neutral_bracket : forall o c t w t', neutral o c w -> o t = true -> o t' = false -> c t' = true ->
  neutral o c (t :: w ++ [t']).
Proof.
  intros o c t w t' Hw Ho Ho' Hc' d r. cbn [app find_close]. rewrite Ho, <- app_assoc. cbn [app].
  rewrite Hw. cbn [find_close]. rewrite Ho', Hc'.
  destruct (find_close o c d r) as [[x y]|]; [rewrite <- app_assoc|]; reflexivity.
Qed.

Inductive brackets : (token -> bool) -> (token -> bool) -> Prop :=
| br_option : brackets is_start_option is_end_option
| br_repeat : brackets is_start_repeat is_end_repeat
| br_group : brackets is_start_group is_end_group.

Lemma neutral_quiet : forall o c w, Forall (fun t => o t = false /\ c t = false) w -> neutral o c w.
Proof.
  intros o c w H. induction H as [|t w (Ho & Hc) _ IH]; [apply neutral_nil|].
  apply (neutral_app o c [t]); [apply neutral_one; assumption|exact IH].
Qed.
Lemma trivia_quiet : forall o c w, brackets o c -> all_trivia w -> neutral o c w.
Proof.
  intros o c w Hb H. apply neutral_quiet. eapply Forall_impl; [|exact H].
  intros t Ht. destruct Hb; destruct t; cbn; auto; destruct Ht.
Qed.
Lemma word_quiet : forall o c w, brackets o c -> Forall word_or_gap w -> neutral o c w.
Proof.
  intros o c w Hb H. apply neutral_quiet. eapply Forall_impl; [|exact H].
  intros t Ht. destruct Hb; destruct t; cbn; auto; destruct Ht.
Qed.

Lemma all_neutral : forall o c, brackets o c ->
  (forall w p, g_primary w p -> neutral o c w) /\
  (forall w f, g_factor w f -> neutral o c w) /\
  (forall w t, g_term w t -> neutral o c w) /\
  (forall w s, g_single w s -> neutral o c w) /\
  (forall w d, g_defs w d -> neutral o c w).
Proof.
  intros o c Hb. apply g_all_mut; intros;
    repeat match goal with
    | |- neutral _ _ (_ :: _ ++ [_]) =>
        destruct Hb; first [apply neutral_bracket; solve [assumption|reflexivity]
          | apply (neutral_app _ _ [_]); [apply neutral_one; reflexivity|apply neutral_app; [assumption|apply neutral_one; reflexivity]]]
    | |- neutral _ _ (_ ++ _) => apply neutral_app
    | |- neutral _ _ (?t :: ?w) => match w with [] => fail 1 | _ => apply (neutral_app _ _ [t]) end
    | |- neutral _ _ [_] => apply neutral_one; destruct Hb; reflexivity
    | |- neutral _ _ [] => apply neutral_nil
    end; try assumption; try (apply trivia_quiet; assumption).
  apply word_quiet; [exact Hb|]. destruct H. constructor; [exact I|assumption].
Qed.

Lemma enclosed_found : forall o c w d t rest, brackets o c -> g_defs w d -> c t = true ->
  find_close o c 0 (w ++ t :: rest) = Some (w, rest).
Proof.
  intros o c w d t rest Hb Hg Hc. rewrite (proj2 (proj2 (proj2 (proj2 (all_neutral o c Hb)))) w d Hg).
  cbn [find_close]. assert (Ho : o t = false) by (destruct Hb; destruct t; try discriminate; reflexivity).
  rewrite Ho, Hc, app_nil_r. reflexivity.
Qed.
Lemma defs_not_end_group : forall w d t rest, g_defs w d -> is_end_group t = false ->
  match w ++ t :: rest with x :: _ => is_end_group x | [] => false end = false.
Proof.
  intros [|x w] d t rest Hg Ht; [exact Ht|]. cbn [app].
  destruct (is_end_group x) eqn:E; [|reflexivity].
  pose proof (enclosed_found _ _ _ _ (TEndGroup (Loc [] 0 0)) [] br_group Hg eq_refl) as F.
  cbn [app find_close] in F. destruct x; try discriminate.
Qed.

(** ** Completeness *)
Definition stop (t : token) : bool :=
  match t with TExcept _ | TConcat _ | TDefSep _ _ | TTerminator _ _ | TEOF _ => true | _ => false end.
Definition stops (rest : list token) : Prop :=
  match skip_trivia rest with [] => True | t :: _ => stop t = true end.

Lemma stops_trivia : forall tr rest, all_trivia tr -> stops rest -> stops (tr ++ rest).
Proof. intros tr rest Ht Hs. unfold stops in *. rewrite skip_app by exact Ht. exact Hs. Qed.
Lemma stops_cons : forall t rest, stop t = true -> stops (t :: rest).
Proof. intros t rest H. unfold stops. rewrite skip_cons by (destruct t; try discriminate; reflexivity). exact H. Qed.

Lemma g_primary_head : forall w p, g_primary w p -> forall t r, w = t :: r ->
  triviab t = false /\ stop t = false /\ (forall l s, t <> TInteger l s).
Proof.
  intros w p H t r E. destruct H; cbn in E; try discriminate; try (injection E as <- <-; repeat split; congruence).
  destruct H. injection E as <- <-. repeat split; congruence.
Qed.

Notation rp := (reloc_primary nowhere same).
Notation rf := (reloc_factor nowhere same).
Notation rt := (reloc_term nowhere same).
Notation rs := (reloc_single nowhere same).
Notation rd := (reloc_defs nowhere same).

Lemma rp_optional : forall l d, rp (POptional l d) = POptional l (rd d).
Proof.
  reflexivity.
Qed.
Lemma rp_repeated : forall l d, rp (PRepeated l d) = PRepeated l (rd d).
Proof.
  reflexivity.
Qed.
Lemma rp_grouped : forall l d, rp (PGrouped l d) = PGrouped l (rd d).
Proof.
  reflexivity.
Qed.

Definition no_word (ts : list token) : Prop :=
  match skip_trivia ts with TMeta _ _ :: _ => False | _ => True end.
Lemma stops_no_word : forall rest, stops rest -> no_word rest.
Proof. unfold stops, no_word. intros rest H. destruct (skip_trivia rest) as [|[] ?]; try exact I; discriminate. Qed.
Lemma gaps_of_trivia : forall tr rest, all_trivia tr -> no_word rest ->
  exists gaps next, tr ++ rest = gaps ++ next /\ Forall (fun t => is_gap_token t = true) gaps /\
    (forall t r', next = t :: r' -> word_or_gapb t = false) /\ skip_trivia next = skip_trivia rest.
Proof.
  intros tr rest Ht Hs.
  assert (forall ts, no_word ts -> exists gaps next, ts = gaps ++ next /\ Forall (fun t => is_gap_token t = true) gaps /\
    (forall t r', next = t :: r' -> word_or_gapb t = false) /\ skip_trivia next = skip_trivia ts) as K.
  { clear. induction ts as [|t ts IH]; intros Hs.
    - exists [], []. repeat split; [constructor|discriminate].
    - destruct (is_gap_token t) eqn:E.
      + destruct IH as (gaps & next & E1 & E2 & E3 & E4).
        { unfold no_word in Hs. cbn [skip_trivia] in Hs. rewrite E in Hs. exact Hs. }
        exists (t :: gaps), next. split; [cbn; f_equal; exact E1|]. split; [constructor; assumption|].
        split; [exact E3|]. cbn [skip_trivia]. rewrite E. exact E4.
      + exists [], (t :: ts). split; [reflexivity|]. split; [constructor|]. split; [|reflexivity].
        intros t0 r' E0. injection E0 as <- <-. unfold no_word in Hs. cbn [skip_trivia] in Hs. rewrite E in Hs.
        destruct t; try reflexivity; try discriminate. destruct Hs. }
  destruct (K (tr ++ rest)) as (gaps & next & E1 & E2 & E3 & E4).
  { unfold no_word. rewrite skip_app by assumption. exact Hs. }
  exists gaps, next. rewrite E4, skip_app by assumption. auto.
Qed.

Definition cp_primary (w : list token) (p : primary) : Prop :=
  forall f all tr1 tr2 rest, all_trivia tr1 -> all_trivia tr2 -> stops rest -> vt (w ++ tr2 ++ rest) ->
    6 * length (tr1 ++ w ++ tr2 ++ rest) + 1 <= f ->
    exists p' next, read_syntactic_primary f all (tr1 ++ w ++ tr2 ++ rest) = Ok (p', next) /\
      rp p' = rp p /\ skip_trivia next = skip_trivia rest.
Definition cp_factor (w : list token) (x : factor) : Prop :=
  forall f all rest, stops rest -> vt (w ++ rest) -> 6 * length (w ++ rest) + 2 <= f ->
    exists x' next, read_syntactic_factor f all (w ++ rest) = Ok (x', next) /\
      rf x' = rf x /\ skip_trivia next = skip_trivia rest.
Definition stops_term (rest : list token) : Prop :=
  stops rest /\ match skip_trivia rest with TExcept _ :: _ => False | _ => True end.
Definition cp_term (w : list token) (x : term) : Prop :=
  forall f all rest, stops_term rest -> vt (w ++ rest) -> 6 * length (w ++ rest) + 3 <= f ->
    exists x' next, read_syntactic_term f all (w ++ rest) = Ok (x', next) /\
      rt x' = rt x /\ skip_trivia next = skip_trivia rest.
Definition stops_single (rest : list token) : Prop :=
  ends_or_sep rest.
Definition cp_single (w : list token) (x : single_definition) : Prop :=
  forall f all rest, ends_or_sep rest -> vt (w ++ rest) -> 6 * length (w ++ rest) + 4 <= f ->
    exists x', read_single_definition f all (w ++ rest) = Ok (x', rest) /\ rs x' = rs x.
Definition cp_defs (w : list token) (x : definition_list) : Prop :=
  forall f all rest, ends_at rest -> vt (w ++ rest) -> 6 * length (w ++ rest) + 5 <= f ->
    exists x', read_definition_list f all (w ++ rest) = Ok x' /\ rd x' = rd x.

Lemma ends_stops : forall rest, ends_or_sep rest -> stops_term rest /\ skip_trivia rest = rest.
Proof.
  intros rest [->|(t & r & -> & Ht)]; [repeat split; exact I|].
  assert (Hs : stop t = true /\ triviab t = false /\ match t with TExcept _ => False | _ => True end).
  { destruct Ht as [Ht|(l & c & ->)]; [|repeat split; exact I]. destruct t; try destruct Ht; repeat split; exact I. }
  destruct Hs as (H1 & H2 & H3). unfold stops_term, stops. rewrite (skip_cons _ _ H2).
  repeat split; auto.
Qed.
Lemma ends_at_or_sep : forall rest, ends_at rest -> ends_or_sep rest.
Proof. intros rest [->|(t & r & -> & Ht)]; [left; reflexivity|right; eauto]. Qed.

Lemma complete_all :
  (forall w p, g_primary w p -> cp_primary w p) /\
  (forall w f, g_factor w f -> cp_factor w f) /\
  (forall w t, g_term w t -> cp_term w t) /\
  (forall w s, g_single w s -> cp_single w s) /\
  (forall w d, g_defs w d -> cp_defs w d).
Proof.
  assert (Henc : forall o c w d tc tr1 tr2 rest topen f, brackets o c -> c tc = true ->
    g_defs w d -> cp_defs w d -> vt ((topen :: w ++ [tc]) ++ tr2 ++ rest) -> all_trivia tr2 ->
    6 * length (tr1 ++ (topen :: w ++ [tc]) ++ tr2 ++ rest) + 1 <= S f ->
    exists d', find_close o c 0 (w ++ tc :: tr2 ++ rest) = Some (w, tr2 ++ rest) /\
      read_definition_list f w w = Ok d' /\ rd d' = rd d /\ skip_trivia (tr2 ++ rest) = skip_trivia rest).
  { intros o c w d tc tr1 tr2 rest topen f Hb Hc Hg Hd Hv Ht2 Hf.
    rewrite (enclosed_found o c w d tc (tr2 ++ rest) Hb Hg Hc).
    assert (Hv' : vt (w ++ [])).
    { rewrite app_nil_r. cbn [app] in Hv. apply vt_cons in Hv. rewrite <- !app_assoc in Hv. apply vt_app in Hv. tauto. }
    destruct (Hd f w [] (or_introl eq_refl) Hv') as (d' & Ed & Er).
    { rewrite !app_length in Hf. cbn [length] in Hf. rewrite !app_length in Hf. cbn [length] in Hf. rewrite app_nil_r. lia. }
    rewrite app_nil_r in Ed. exists d'. rewrite skip_app by assumption. auto. }
  assert (Hsk : forall tr1 t w, all_trivia tr1 -> triviab t = false -> skip_trivia (tr1 ++ t :: w) = t :: w).
  { intros. rewrite skip_app by assumption. apply skip_cons. assumption. }
  apply g_all_mut.
  - (* optional *)
    intros l s w d l' s' Hg Hd f all tr1 tr2 rest H1 H2 Hs Hv Hf. destruct f as [|f]; [lia|].
    destruct (Henc _ _ w d (TEndOption l' s') tr1 tr2 rest _ f br_option eq_refl Hg Hd Hv H2 Hf) as (d' & E1 & E2 & E3 & E4).
    cbn [read_syntactic_primary app]. rewrite Hsk by (auto). rewrite <- app_assoc. cbn [app].
    rewrite (defs_not_end_group w d _ _ Hg) by reflexivity. rewrite andb_false_r, E1.
    cbn [bind]. rewrite E2. cbn [bind]. eexists _, _. split; [reflexivity|].
    rewrite !rp_optional, E3. auto.
  - intros l s w d l' s' Hg Hd f all tr1 tr2 rest H1 H2 Hs Hv Hf. destruct f as [|f]; [lia|].
    destruct (Henc _ _ w d (TEndRepeat l' s') tr1 tr2 rest _ f br_repeat eq_refl Hg Hd Hv H2 Hf) as (d' & E1 & E2 & E3 & E4).
    cbn [read_syntactic_primary app]. rewrite Hsk by (auto). rewrite <- app_assoc. cbn [app].
    rewrite (defs_not_end_group w d _ _ Hg) by reflexivity. rewrite andb_false_r, E1.
    cbn [bind]. rewrite E2. cbn [bind]. eexists _, _. split; [reflexivity|].
    rewrite !rp_repeated, E3. auto.
  - intros l w d l' Hg Hd f all tr1 tr2 rest H1 H2 Hs Hv Hf. destruct f as [|f]; [lia|].
    destruct (Henc _ _ w d (TEndGroup l') tr1 tr2 rest _ f br_group eq_refl Hg Hd Hv H2 Hf) as (d' & E1 & E2 & E3 & E4).
    cbn [read_syntactic_primary app]. rewrite Hsk by (auto). rewrite <- app_assoc. cbn [app].
    rewrite E1.
    cbn [bind]. rewrite E2. cbn [bind]. eexists _, _. split; [reflexivity|].
    rewrite !rp_grouped, E3. auto.
  - (* meta *)
    intros w l id Hid f all tr1 tr2 rest H1 H2 Hs Hv Hf. destruct f as [|f]; [lia|].
    destruct (gaps_of_trivia tr2 rest H2 (stops_no_word _ Hs)) as (gaps & next & E & Hg & Hn & Es).
    rewrite E in Hv |- *. pose proof (rmi_complete w l id gaps next Hv Hid Hg Hn) as Hr.
    destruct Hid as [l s w ws HW HL HWs]. cbn [read_syntactic_primary app]. rewrite Hsk by auto.
    cbn [app] in Hr. rewrite Hr. eexists _, _. split; [reflexivity|]. auto.
  - intros l s q f all tr1 tr2 rest H1 H2 Hs Hv Hf. destruct f as [|f]; [lia|].
    cbn [read_syntactic_primary app]. rewrite Hsk by auto. eexists _, _. split; [reflexivity|].
    rewrite skip_app by assumption. auto.
  - intros l s f all tr1 tr2 rest H1 H2 Hs Hv Hf. destruct f as [|f]; [lia|].
    cbn [read_syntactic_primary app]. rewrite Hsk by auto. eexists _, _. split; [reflexivity|].
    rewrite skip_app by assumption. auto.
  - (* empty *)
    intros l f all tr1 tr2 rest H1 H2 Hs Hv Hf. destruct f as [|f]; [lia|].
    cbn [read_syntactic_primary app]. rewrite !skip_app by assumption. unfold stops in Hs.
    destruct (skip_trivia rest) as [|t r] eqn:E.
    + eexists _, _. split; [reflexivity|]. auto.
    + destruct t; try discriminate; (eexists _, _; split; [reflexivity|]; split; [reflexivity|]; rewrite <- E; apply skip_skip).
  - (* once *)
    intros tr1 w tr2 p H1 Hg Hp H2 f all rest Hs Hv Hf. destruct f as [|f]; [lia|].
    cbn [read_syntactic_factor]. rewrite <- !app_assoc in *. rewrite skip_app by assumption.
    apply vt_app in Hv as (_ & Hv).
    assert (E : exists tr', skip_trivia (w ++ tr2 ++ rest) = [] ++ w ++ tr' ++ rest /\ all_trivia tr' /\ w <> []
                 \/ skip_trivia (w ++ tr2 ++ rest) = skip_trivia rest /\ w = [] /\ tr' = []).
    { destruct w as [|t w].
      - exists []. right. cbn [app]. rewrite skip_app by assumption. auto.
      - exists tr2. left. cbn [app]. destruct (g_primary_head _ _ Hg t w eq_refl) as (E & _).
        rewrite skip_cons by assumption. repeat split; auto. discriminate. }
    destruct E as (tr' & [(E & Ht' & Hw)|(E & -> & ->)]).
    + assert (Et : tr' = tr2).
      { destruct w as [|t w]; [congruence|]. destruct (g_primary_head _ _ Hg t w eq_refl) as (E' & _).
        cbn [app] in E. rewrite skip_cons in E by assumption. injection E as E.
        apply app_inv_head in E. apply app_inv_tail in E. auto. }
      subst tr'.
      destruct (Hp f all [] tr2 rest ltac:(constructor) H2 Hs Hv) as (p' & next & Ep & Er & En).
      { cbn [app]. rewrite app_length in Hf. lia. }
      rewrite E. exists (Factor 1 p'), next. cbn [app] in *.
      assert (Em : match w ++ tr2 ++ rest with TInteger _ _ :: _ => False | _ => True end).
      { destruct w as [|t w]; [congruence|]. destruct (g_primary_head _ _ Hg t w eq_refl) as (_ & _ & Hi).
        cbn [app]. destruct t; try exact I. exact (Hi _ _ eq_refl). }
      destruct (w ++ tr2 ++ rest) as [|t r]; [cbn [bind]; rewrite Ep; cbn [bind]|].
      * split; [reflexivity|]. split; [|exact En]. unfold reloc_factor. cbn. rewrite Er. reflexivity.
      * destruct t; try destruct Em; (cbn [bind]; rewrite Ep; cbn [bind]; split; [reflexivity|]; split; [|exact En]; unfold reloc_factor; cbn; rewrite Er; reflexivity).
    + rewrite E. cbn [app] in *.
      destruct (skip_split rest) as (tr & Es & Htr & _). 
      assert (Hs' : stops (skip_trivia rest)) by (unfold stops; rewrite skip_skip; exact Hs).
      destruct (Hp f all [] [] (skip_trivia rest) ltac:(constructor) ltac:(constructor) Hs') as (p' & next & Ep & Er & En).
      { cbn [app]. apply vt_app in Hv as (_ & Hv). apply vt_skip. exact Hv. }
      { cbn [app]. rewrite !app_length in Hf. pose proof (skip_length rest). lia. }
      cbn [app] in Ep. rewrite skip_skip in En.
      assert (Em : match skip_trivia rest with TInteger _ _ :: _ => False | _ => True end).
      { unfold stops in Hs. destruct (skip_trivia rest) as [|[] ?]; try exact I; discriminate. }
      exists (Factor 1 p'), next.
      destruct (skip_trivia rest) as [|t r] eqn:Ek; [cbn [bind]; rewrite Ep; cbn [bind]|].
      * split; [reflexivity|]. split; [|exact En]. unfold reloc_factor. cbn. rewrite Er. reflexivity.
      * destruct t; try destruct Em; (cbn [bind]; rewrite Ep; cbn [bind]; split; [reflexivity|]; split; [|exact En]; unfold reloc_factor; cbn; rewrite Er; reflexivity).
  - (* times *)
    intros tr1 l s tr2 l' tr3 w tr4 p H1 H2 H3 H4 Hle Hg Hp f all rest Hs Hv Hf. destruct f as [|f]; [lia|].
    rewrite <- app_assoc in *. cbn [app] in *. rewrite <- app_assoc in *. cbn [app] in *. rewrite <- !app_assoc in *.
    cbn [read_syntactic_factor]. rewrite Hsk by auto.
    assert (Em : parse_u32 s = Some (numeral s)) by (apply parse_u32_some; auto). rewrite Em, Hsk by auto.
    cbn [bind]. apply vt_app in Hv as (_ & Hv). apply vt_cons in Hv. apply vt_app in Hv as (_ & Hv). apply vt_cons in Hv.
    apply vt_app in Hv as (_ & Hv). rewrite skip_app by assumption.
    assert (Hlen : 6 * length (w ++ tr4 ++ rest) + 1 <= f).
    { rewrite app_length in Hf. cbn [length] in Hf. rewrite app_length in Hf. cbn [length] in Hf. rewrite app_length in Hf. lia. }
    assert (E : exists p' next, read_syntactic_primary f all (skip_trivia (w ++ tr4 ++ rest)) = Ok (p', next) /\
                rp p' = rp p /\ skip_trivia next = skip_trivia rest).
    { destruct w as [|t w].
      - cbn [app] in *. rewrite skip_app by assumption.
        assert (Hs' : stops (skip_trivia rest)) by (unfold stops; rewrite skip_skip; exact Hs).
        destruct (Hp f all [] [] (skip_trivia rest) ltac:(constructor) ltac:(constructor) Hs') as (p' & next & Ep & Er & En).
        { cbn [app]. apply vt_app in Hv as (_ & Hv). apply vt_skip. exact Hv. }
        { cbn [app]. rewrite !app_length in Hlen. pose proof (skip_length rest). lia. }
        rewrite skip_skip in En. exists p', next. auto.
      - destruct (g_primary_head _ _ Hg t w eq_refl) as (E & _). cbn [app]. rewrite skip_cons by assumption.
        exact (Hp f all [] tr4 rest ltac:(constructor) H4 Hs Hv Hlen). }
    destruct E as (p' & next & Ep & Er & En). rewrite Ep. cbn [bind].
    exists (Factor (numeral s) p'), next. split; [reflexivity|]. split; [|exact En].
    unfold reloc_factor. cbn. rewrite Er. reflexivity.
  - (* plain term *)
    intros w x Hg Hx f all rest (Hs & Hne) Hv Hf. destruct f as [|f]; [lia|].
    cbn [read_syntactic_term]. destruct (Hx f all rest Hs Hv ltac:(lia)) as (x' & next & Ex & Er & En).
    rewrite Ex. cbn [bind]. rewrite En. exists (Term x' None), (skip_trivia rest).
    rewrite skip_skip. split; [|split; [unfold reloc_term; cbn [t_factor t_exc option_map]; rewrite Er; reflexivity|reflexivity]].
    destruct (skip_trivia rest) as [|[] ?]; try reflexivity. destruct Hne.
  - (* exception *)
    intros w x l w' e Hg Hx Hg' He f all rest (Hs & Hne) Hv Hf. destruct f as [|f]; [lia|].
    cbn [read_syntactic_term]. rewrite <- app_assoc in *. cbn [app] in *.
    destruct (Hx f all (TExcept l :: w' ++ rest) (stops_cons (TExcept l) _ eq_refl) Hv ltac:(lia)) as (x' & next & Ex & Er & En).
    rewrite Ex. cbn [bind]. rewrite En, skip_cons by reflexivity.
    apply vt_app in Hv as (_ & Hv). apply vt_cons in Hv.
    destruct (He f all rest Hs Hv) as (e' & next' & Ee & Er' & En').
    { rewrite app_length in Hf. cbn [length] in Hf. lia. }
    rewrite Ee. cbn [bind]. exists (Term x' (Some e')), next'. split; [reflexivity|]. split; [|exact En'].
    unfold reloc_term; cbn [t_factor t_exc option_map]; rewrite Er, Er'; reflexivity.
  - (* last term *)
    intros w t Hg Ht f all rest He Hv Hf. destruct f as [|f]; [lia|].
    cbn [read_single_definition]. destruct (ends_stops rest He) as (Hs & Hsk').
    destruct (Ht f all rest Hs Hv ltac:(lia)) as (t' & next & Et & Er & En).
    rewrite Et. cbn [bind]. rewrite En, Hsk'. exists [t']. split; [|unfold reloc_single; cbn [map]; rewrite Er; reflexivity].
    destruct He as [->|(t0 & r & -> & [H0|(l & c & ->)])]; try reflexivity.
    destruct t0; destruct H0; reflexivity.
  - (* concatenation *)
    intros w t l w' ts Hg Ht Hg' Hts f all rest He Hv Hf. destruct f as [|f]; [lia|].
    cbn [read_single_definition]. rewrite <- app_assoc in *. cbn [app] in *.
    assert (Hst : stops_term (TConcat l :: w' ++ rest)) by (split; [apply stops_cons; reflexivity|exact I]).
    destruct (Ht f all _ Hst Hv ltac:(lia)) as (t' & next & Et & Er & En).
    rewrite Et. cbn [bind]. rewrite En, skip_cons by reflexivity.
    apply vt_app in Hv as (_ & Hv). apply vt_cons in Hv.
    destruct (Hts f all rest He Hv) as (ts' & Ets & Er').
    { rewrite app_length in Hf. cbn [length] in Hf. lia. }
    rewrite Ets. cbn [bind]. exists (t' :: ts'). split; [reflexivity|].
    unfold reloc_single in *. cbn [map]. rewrite Er, Er'. reflexivity.
  - (* last definition *)
    intros w s Hg Hs f all rest He Hv Hf. destruct f as [|f]; [lia|].
    cbn [read_definition_list]. destruct (ends_stops rest (ends_at_or_sep _ He)) as (_ & Hsk').
    destruct (Hs f all rest (ends_at_or_sep _ He) Hv ltac:(lia)) as (s' & Es & Er).
    rewrite Es. cbn [bind]. rewrite Hsk'. exists [s']. split; [|unfold reloc_defs; cbn [map]; rewrite Er; reflexivity].
    destruct He as [->|(t0 & r & -> & H0)]; [reflexivity|]. apply is_terminator_spec in H0. rewrite H0. reflexivity.
  - intros w s l c w' ds Hg Hs Hg' Hds f all rest He Hv Hf. destruct f as [|f]; [lia|].
    cbn [read_definition_list]. rewrite <- app_assoc in *. cbn [app] in *.
    assert (Hst : ends_or_sep (TDefSep l c :: w' ++ rest)) by (right; eexists _, _; split; [reflexivity|right; eauto]).
    destruct (Hs f all _ Hst Hv ltac:(lia)) as (s' & Es & Er).
    rewrite Es. cbn [bind]. rewrite skip_cons by reflexivity. cbn [is_terminator].
    apply vt_app in Hv as (_ & Hv). apply vt_cons in Hv.
    destruct (Hds f all rest He Hv) as (ds' & Eds & Er').
    { rewrite app_length in Hf. cbn [length] in Hf. lia. }
    rewrite Eds. cbn [bind]. exists (s' :: ds'). split; [reflexivity|].
    unfold reloc_defs in *. cbn [map]. rewrite Er, Er'. reflexivity.
Qed.

(** ** The fuel is enough, and the only panic *)
Definition trouble (ts : list token) : Prop :=
  exists a l s tr b, ts = a ++ TInteger l s :: tr ++ b /\ all_trivia tr /\
    (b = [] \/ exists t b', b = t :: b' /\ closing t).
Lemma trouble_suffix : forall a b, trouble b -> trouble (a ++ b).
Proof.
  intros a b (x & l & s & tr & y & -> & H1 & H2). exists (a ++ x), l, s, tr, y.
  split; [rewrite <- app_assoc; reflexivity|auto].
Qed.
Lemma trouble_cons : forall t b, trouble b -> trouble (t :: b).
Proof. intros t b. apply (trouble_suffix [t]). Qed.
Lemma trouble_inside : forall a t b, trouble a -> closing t -> trouble (a ++ t :: b).
Proof.
  intros a t b (x & l & s & tr & y & -> & H1 & H2) Ht. exists x, l, s, tr, (y ++ t :: b).
  split; [rewrite <- !app_assoc; cbn; rewrite <- !app_assoc; reflexivity|]. split; [exact H1|right].
  destruct H2 as [->|(t' & b' & -> & Ht')]; cbn; eauto.
Qed.

Definition safe {A} (ts : list token) (r : res A) : Prop :=
  match r with
  | Ok _ | Err _ => True
  | Panic p => p = PIndex /\ trouble ts
  | OutOfFuel => False
  end.
Lemma safe_bind : forall {A B} ts (m : res A) (f : A -> res B), safe ts m ->
  (forall a, m = Ok a -> safe ts (f a)) -> safe ts (bind m f).
Proof. intros A B ts [a|e|p|] f H K; cbn in *; auto. Qed.
Lemma safe_suffix : forall {A} a b (r : res A), safe b r -> safe (a ++ b) r.
Proof. intros A a b [x|e|p|] H; cbn in *; auto. destruct H. split; auto using trouble_suffix. Qed.

Lemma total_all : forall f,
  (forall all ts, one_end ts -> vt ts -> 6 * length ts + 5 <= f -> safe ts (read_definition_list f all ts)) /\
  (forall all ts, one_end ts -> vt ts -> 6 * length ts + 4 <= f -> safe ts (read_single_definition f all ts)) /\
  (forall all ts, one_end ts -> vt ts -> 6 * length ts + 3 <= f -> safe ts (read_syntactic_term f all ts)) /\
  (forall all ts, one_end ts -> vt ts -> 6 * length ts + 2 <= f -> safe ts (read_syntactic_factor f all ts)) /\
  (forall all ts, one_end ts -> vt ts -> 6 * length ts + 1 <= f -> safe ts (read_syntactic_primary f all ts)).
Proof.
  induction f as [|f (IHdl & IHsd & IHtm & IHfa & IHpr)]; [repeat split; intros; lia|].
  destruct (sound_all f) as (Sdl & Ssd & Stm & Sfa & Spr).
  split; [|split; [|split; [|split]]]; intros all ts Ho Hv Hf.
  - cbn [read_definition_list]. apply safe_bind; [apply IHsd; auto; lia|].
    intros (sd & next) E. destruct (Ssd _ _ _ _ Ho Hv E) as (w & Ets & _ & He).
    destruct (ends_stops next He) as (_ & ->). destruct next as [|t r]; [exact I|].
    destruct (is_terminator t) eqn:Et; [exact I|].
    destruct He as [|(t' & r' & E' & Ht)]; [discriminate|]. injection E' as <- <-.
    destruct Ht as [Ht|(l & c & ->)]; [apply is_terminator_spec in Ht; congruence|].
    subst ts. apply one_end_tail in Ho. apply vt_app in Hv as (_ & Hv). apply (one_end_tail [_]) in Ho. apply vt_cons in Hv.
    rewrite app_length in Hf. cbn [length] in Hf.
    apply safe_suffix, (safe_suffix [_]), safe_bind; [apply IHdl; auto; lia|intros; exact I].
  - cbn [read_single_definition]. apply safe_bind; [apply IHtm; auto; lia|].
    intros (tm & next) E. destruct (Stm _ _ _ _ Ho Hv E) as (w & Ets & _). 
    destruct (skip_split next) as (tr & En & _). destruct (skip_trivia next) as [|t r]; [exact I|].
    subst next ts. apply one_end_tail in Ho. apply one_end_tail in Ho. apply (one_end_tail [_]) in Ho.
    apply vt_app in Hv as (_ & Hv). apply vt_app in Hv as (_ & Hv). apply vt_cons in Hv.
    rewrite !app_length in Hf. cbn [length] in Hf.
    destruct t; try exact I.
    apply safe_suffix, safe_suffix, (safe_suffix [_]), safe_bind; [apply IHsd; auto; lia|intros (? & ?) _; exact I].
  - cbn [read_syntactic_term]. apply safe_bind; [apply IHfa; auto; lia|].
    intros (fa & next) E. destruct (Sfa _ _ _ _ Ho Hv E) as (w & Ets & _).
    destruct (skip_split next) as (tr & En & _). destruct (skip_trivia next) as [|t r]; [exact I|].
    subst next ts. apply one_end_tail in Ho. apply one_end_tail in Ho. apply (one_end_tail [_]) in Ho.
    apply vt_app in Hv as (_ & Hv). apply vt_app in Hv as (_ & Hv). apply vt_cons in Hv.
    rewrite !app_length in Hf. cbn [length] in Hf.
    destruct t; try exact I.
    apply safe_suffix, safe_suffix, (safe_suffix [_]), safe_bind; [apply IHfa; auto; lia|intros (? & ?) _; exact I].
  - cbn [read_syntactic_factor]. destruct (skip_split ts) as (tr & Ets & _).
    remember (skip_trivia ts) as sk eqn:Es. subst ts.
    apply safe_suffix. apply one_end_tail in Ho. apply vt_app in Hv as (_ & Hv). rewrite app_length in Hf.
    clear Es.
    assert (K : safe sk (let? (n, next) := Ok (1%N, sk) in let? (p, next) := read_syntactic_primary f all next in Ok (Factor n p, next))).
    { cbn [bind]. apply safe_bind; [apply IHpr; auto; lia|intros (? & ?) _; exact I]. }
    destruct sk as [|t r]; [exact K|]. destruct t; try exact K. clear K.
    destruct (parse_u32 s) as [n|]; [|exact I].
    destruct (skip_split r) as (tr2 & Er & Ht2 & _). destruct (skip_trivia r) as [|t2 r2] eqn:Es2.
    + cbn. split; [reflexivity|]. exists [], l, s, tr2, []. rewrite Er. auto.
    + destruct t2; try exact I. cbn [bind]. subst r.
      apply (one_end_tail [_]) in Ho. apply one_end_tail in Ho. apply (one_end_tail [_]) in Ho.
      apply vt_cons in Hv. apply vt_app in Hv as (_ & Hv). apply vt_cons in Hv.
      destruct (skip_split r2) as (tr3 & Er2 & _). apply vt_skip in Hv.
      cbn [length] in Hf. rewrite app_length in Hf. cbn [length] in Hf. pose proof (skip_length r2).
      apply (safe_suffix [_]), safe_suffix, (safe_suffix [_]). rewrite Er2 at 1. rewrite Er2 in Ho. apply one_end_tail in Ho.
      apply safe_suffix, safe_bind; [apply IHpr; auto; lia|intros (? & ?) _; exact I].
  - cbn [read_syntactic_primary]. destruct (skip_split ts) as (tr & Ets & _).
    remember (skip_trivia ts) as sk eqn:Es. subst ts.
    apply safe_suffix. apply one_end_tail in Ho. apply vt_app in Hv as (_ & Hv). rewrite app_length in Hf.
    clear Es. destruct sk as [|t0 r]; [exact I|].
    assert (K : forall o c mk, (forall t, c t = true -> closing t) ->
      safe (t0 :: r) (bind (match find_close o c 0 r with
             | Some (sub, nx) => let? d := read_definition_list f sub sub in Ok (d, nx)
             | None => Err {| e_loc := tok_loc t0; e_msg := MNotClosed (tok_name t0) (tok_debug t0) |}
             end) (fun '(d, nx) => Ok (mk d : primary, nx : list token)))).
    { intros o c mk Hc. apply safe_bind; [|intros (? & ?) _; exact I].
      destruct (find_close o c 0 r) as [[sub nx]|] eqn:Ef; [|exact I].
      apply find_close_split in Ef as (tc & -> & Etc & _). apply Hc in Etc.
      apply (one_end_tail [t0]) in Ho. apply one_end_front in Ho; [|discriminate].
      apply vt_cons in Hv. apply vt_app in Hv as (Hv & _). cbn [length] in Hf. rewrite app_length in Hf. cbn [length] in Hf.
      pose proof (IHdl sub sub (or_introl Ho) Hv ltac:(lia)) as S.
      destruct (read_definition_list f sub sub) as [d|e|p|]; cbn in *; auto.
      destruct S as (-> & S). split; [reflexivity|]. apply trouble_cons, trouble_inside; assumption. }
    destruct t0; try exact I.
    + destruct (_ && _); [exact I|]. apply K. intros [] E; try discriminate; exact I.
    + destruct (_ && _); [exact I|]. apply K. intros [] E; try discriminate; exact I.
    + apply K. intros [] E; try discriminate; exact I.
    + destruct (read_meta_identifier _) as ((? & ?) & ?). exact I.
Qed.

(** ** One rule *)
Lemma one_final_spec : forall ts, one_final_terminator ts = true <->
  exists a t, ts = a ++ [t] /\ terminator t /\ existsb is_terminator a = false.
Proof.
  intros ts. unfold one_final_terminator. destruct (rev ts) as [|t r] eqn:E.
  - split; [discriminate|]. intros (a & t & -> & _). rewrite rev_unit in E. discriminate.
  - assert (Ets : ts = rev r ++ [t]).
    { rewrite <- (rev_involutive ts), E. reflexivity. }
    assert (Ex : existsb is_terminator (rev r) = existsb is_terminator r).
    { clear. induction r as [|x r IH]; [reflexivity|]. cbn. rewrite existsb_app, IH. cbn. rewrite orb_false_r. apply orb_comm. }
    rewrite andb_true_iff, negb_true_iff. split.
    + intros (H1 & H2). exists (rev r), t. rewrite Ex. apply is_terminator_spec in H1. auto.
    + intros (a & t' & Ea & H1 & H2). rewrite Ea in Ets. apply app_inj_tail in Ets as (-> & ->).
      rewrite Ex in H2. apply is_terminator_spec in H1. auto.
Qed.

Lemma rmi_none : forall ts, match skip_trivia ts with TMeta _ _ :: _ => False | _ => True end ->
  exists id, read_meta_identifier ts = (id, None, skip_trivia ts).
Proof.
  intros ts H. unfold read_meta_identifier. destruct (skip_trivia ts) as [|t r] eqn:E; [eexists; reflexivity|].
  destruct (skip_split ts) as (tr & _ & _ & Hn). specialize (Hn t r E).
  destruct t; try discriminate; try (cbn [rmi_loop]; eexists; reflexivity). destruct H.
Qed.
Lemma rmi_skip : forall ts, read_meta_identifier (skip_trivia ts) = read_meta_identifier ts.
Proof. intros ts. unfold read_meta_identifier. rewrite skip_skip. reflexivity. Qed.

Lemma no_term_app : forall a b, existsb is_terminator (a ++ b) = false <->
  existsb is_terminator a = false /\ existsb is_terminator b = false.
Proof. intros. rewrite existsb_app. apply orb_false_iff. Qed.

Lemma g_ident_name : forall w l id, g_ident w l id -> vt w -> id <> [].
Proof.
  intros w l id Hid Hv. destruct Hid as [l s w ws HW HL Hws].
  unfold vt in Hv. cbn [filter word_or_gapb] in Hv. inversion Hv as [|? ? H1 H2]; subst.
  destruct (meta_chars _ _ H1) as (Hs & HF). destruct s as [|c s]; [congruence|].
  cbn [flat_map tok_text app] in Hws. apply words_inv in Hws. inversion HF; subst.
  destruct Hws as [(Hc & _)|(_ & w0 & t & ws' & _ & -> & Hne & _)].
  - exfalso. apply (wordish_not_gap c); assumption.
  - destruct w0; [congruence|]. destruct ws'; discriminate.
Qed.

(** A derived run contains no terminator. *)
Lemma trivia_no_term : forall w, all_trivia w -> existsb is_terminator w = false.
Proof. intros w H. induction H as [|t w Ht _ IH]; [reflexivity|]. cbn. rewrite IH. destruct t; destruct Ht; reflexivity. Qed.
Lemma words_no_term : forall w, Forall word_or_gap w -> existsb is_terminator w = false.
Proof. intros w H. induction H as [|t w Ht _ IH]; [reflexivity|]. cbn. rewrite IH. destruct t; destruct Ht; reflexivity. Qed.
Lemma derived_no_term :
  (forall w p, g_primary w p -> existsb is_terminator w = false) /\
  (forall w f, g_factor w f -> existsb is_terminator w = false) /\
  (forall w t, g_term w t -> existsb is_terminator w = false) /\
  (forall w s, g_single w s -> existsb is_terminator w = false) /\
  (forall w d, g_defs w d -> existsb is_terminator w = false).
Proof.
  apply g_all_mut; intros; cbn [existsb is_terminator orb];
    repeat (rewrite existsb_app; cbn [existsb is_terminator orb]);
    repeat match goal with
    | H : all_trivia _ |- _ => apply trivia_no_term in H; rewrite H; clear H
    | H : existsb _ _ = false |- _ => rewrite H; clear H
    end; try reflexivity.
  destruct H. cbn. apply words_no_term; assumption.
Qed.
Lemma g_defs_no_term : forall w d, g_defs w d -> existsb is_terminator w = false.
Proof. apply derived_no_term. Qed.
Lemma g_ident_no_term : forall w l id, g_ident w l id -> existsb is_terminator w = false.
Proof. intros w l id H. apply (proj1 derived_no_term w (PMeta l id)). constructor. exact H. Qed.

Lemma split_last : forall (a b : list token) t rest, a ++ [t] = b ++ rest -> terminator t ->
  existsb is_terminator a = false -> existsb is_terminator b = false -> ends_at rest -> a = b /\ rest = [t].
Proof.
  intros a b t rest EE Ht Ha Hb He. destruct He as [->|(t1 & r' & -> & Ht1)].
  - exfalso. rewrite app_nil_r in EE. rewrite <- EE in Hb. apply no_term_app in Hb as (_ & Hb).
    cbn in Hb. apply is_terminator_spec in Ht. rewrite Ht in Hb. discriminate.
  - destruct r' as [|x r'].
    + apply app_inj_tail in EE as (-> & ->). auto.
    + exfalso. destruct (exists_last (l:=x :: r') ltac:(discriminate)) as (y & z & Ez). rewrite Ez in EE.
      rewrite app_comm_cons, app_assoc in EE. apply app_inj_tail in EE as (EE & _). rewrite EE in Ha.
      apply no_term_app in Ha as (_ & Ha). cbn in Ha. apply is_terminator_spec in Ht1. rewrite Ht1 in Ha. discriminate.
Qed.

Lemma build_sound : forall ts o, vt ts -> build_syntax_rule ts = Ok o -> g_run ts o.
Proof.
  intros ts o Hv H. unfold build_syntax_rule in H.
  destruct (one_final_terminator ts) eqn:Eo; cbn [negb] in H; [|discriminate].
  apply one_final_spec in Eo as (a & t & Ets & Ht & Ha).
  destruct (skip_split ts) as (tr & Esp & Htr & Hn).
  destruct (match skip_trivia ts with TMeta _ _ :: _ => true | _ => false end) eqn:Em.
  - destruct (skip_trivia ts) as [|[] r] eqn:Es; try discriminate.
    rewrite <- rmi_skip, Es in H. apply vt_skip in Hv as Hv2. rewrite Es in Hv2.
    destruct (rmi_sound l s r Hv2) as (w & gaps & id & next & E & Hid & Hg & Hnn & Hr).
    rewrite Hr in H. destruct (skip_split next) as (tr2 & En & Htr2 & _).
    destruct (skip_trivia next) as [|t1 r1] eqn:Es1; [discriminate|].
    destruct t1; cbn [is_defining_symbol negb] in H; try discriminate.
    destruct id as [|c id]; [discriminate|].
    apply bind_ok in H as (d & Ed & H). injection H as <-.
    assert (Oe : one_end r1).
    { apply (one_end_tail (tr ++ w ++ gaps ++ tr2 ++ [TDefining l0])). right. exists a, t. rewrite <- Ets.
      split; [|auto]. rewrite Esp, E, En, <- !app_assoc. reflexivity. }
    assert (Hv3 : vt r1).
    { rewrite E, En in Hv2. apply vt_app in Hv2 as (_ & Hv2). apply vt_app in Hv2 as (_ & Hv2). apply vt_app in Hv2 as (_ & Hv2).
      apply vt_cons in Hv2. exact Hv2. }
    destruct (proj1 (sound_all _) _ _ _ Oe Hv3 Ed) as (body & rest & Er & Hgd & He).
    assert (Hgaps : all_trivia gaps).
    { eapply Forall_impl; [|exact Hg]. intros [] E0; try discriminate; exact I. }
    destruct (split_last a (tr ++ w ++ gaps ++ tr2 ++ TDefining l0 :: body) t rest) as (_ & ->); auto.
    { rewrite <- Ets, Esp, E, En, Er. rewrite <- !app_assoc. reflexivity. }
    { rewrite !existsb_app. cbn [existsb is_terminator orb].
      rewrite (trivia_no_term tr), (g_ident_no_term w l (c :: id)), (trivia_no_term gaps), (trivia_no_term tr2), (g_defs_no_term body d) by assumption. reflexivity. }
    replace ts with (tr ++ w ++ (gaps ++ tr2) ++ TDefining l0 :: body ++ [t]).
    + constructor; auto. apply Forall_app. auto.
    + rewrite Esp, E, En, Er, <- !app_assoc. reflexivity.
  - destruct (rmi_none ts) as (id & Hr).
    { destruct (skip_trivia ts) as [|[] ?]; try exact I. discriminate. }
    rewrite Hr, skip_skip in H. destruct (skip_trivia ts) as [|t1 r1] eqn:Es; [discriminate|].
    destruct (is_terminator t1) eqn:Et1; [|discriminate]. injection H as <-.
    apply is_terminator_spec in Et1 as Ht1.
    destruct (split_last a tr t (t1 :: r1)) as (-> & E1); auto.
    { congruence. } { apply trivia_no_term; assumption. } { right. eauto. }
    rewrite Ets. constructor; auto.
Qed.

Definition rr (o : option rule) : option rule := option_map (reloc_rule nowhere same) o.
Lemma build_complete : forall ts o, vt ts -> g_run ts o ->
  exists o', build_syntax_rule ts = Ok o' /\ rr o' = rr o.
Proof.
  intros ts o Hv H. unfold build_syntax_rule.
  destruct H as [tr1 w l id tr2 l' body d t H1 Hid H2 Hd Ht|tr t Htr Ht].
  - replace (one_final_terminator _) with true.
    2:{ symmetry. apply one_final_spec. exists (tr1 ++ w ++ tr2 ++ TDefining l' :: body), t.
        split; [rewrite <- !app_assoc; reflexivity|]. split; [exact Ht|].
        rewrite !existsb_app. cbn [existsb is_terminator orb].
        rewrite (trivia_no_term tr1), (g_ident_no_term w l id), (trivia_no_term tr2), (g_defs_no_term body d) by assumption. reflexivity. }
    cbn [negb]. remember (tr1 ++ w ++ tr2 ++ TDefining l' :: body ++ [t]) as ts eqn:Ets.
    assert (Hsk : skip_trivia ts = w ++ tr2 ++ TDefining l' :: body ++ [t]).
    { subst ts. rewrite skip_app by assumption. destruct Hid. apply skip_cons. reflexivity. }
    assert (Hv2 : vt (w ++ tr2 ++ TDefining l' :: body ++ [t])) by (rewrite <- Hsk; apply vt_skip; exact Hv).
    destruct (gaps_of_trivia tr2 (TDefining l' :: body ++ [t]) H2 I) as (gaps & next & E & Hg & Hn & Es).
    rewrite E in Hsk, Hv2. rewrite <- rmi_skip, Hsk, (rmi_complete w l id gaps next Hv2 Hid Hg Hn), Es.
    rewrite skip_cons by reflexivity. cbn [is_defining_symbol negb].
    assert (Hne : id <> []).
    { apply (g_ident_name w l id Hid). apply vt_app in Hv2. tauto. }
    destruct id as [|c id]; [congruence|].
    rewrite <- E in Hv2. apply vt_app in Hv2 as (_ & Hv2). apply vt_app in Hv2 as (_ & Hv2). apply vt_cons in Hv2.
    destruct (proj2 (proj2 (proj2 (proj2 complete_all))) body d Hd (rd_fuel ts) ts [t]) as (d' & Ed & Er); auto.
    { right. eauto. }
    { unfold rd_fuel. subst ts. rewrite !app_length. cbn [length]. rewrite !app_length. cbn [length]. lia. }
    rewrite Ed. cbn [bind]. exists (Some (Rule l (c :: id) d')). split; [reflexivity|].
    cbn. unfold reloc_rule. cbn [r_loc r_id r_defs]. rewrite Er. reflexivity.
  - replace (one_final_terminator _) with true.
    2:{ symmetry. apply one_final_spec. exists tr, t. auto using trivia_no_term. }
    cbn [negb]. assert (Hsk : skip_trivia (tr ++ [t]) = [t]).
    { rewrite skip_app by assumption. apply skip_cons. destruct t; destruct Ht; reflexivity. }
    destruct (rmi_none (tr ++ [t])) as (id & ->).
    { rewrite Hsk. destruct t; destruct Ht; exact I. }
    rewrite skip_skip, Hsk. apply is_terminator_spec in Ht as Ht'. rewrite Ht'. exists None. auto.
Qed.

Lemma build_total : forall ts, vt ts -> one_final_terminator ts = true -> safe ts (build_syntax_rule ts).
Proof.
  intros ts Hv Ho. unfold build_syntax_rule. rewrite Ho. cbn [negb].
  apply one_final_spec in Ho as (a & t & Ets & Ht & Ha).
  destruct (skip_split ts) as (tr & Esp & Htr & Hn).
  assert (Hone : one_end ts) by (right; eauto).
  assert (Hlast : forall x b, ts = x ++ b -> b = [] -> existsb is_terminator x = false -> False).
  { intros x b E -> Hx. rewrite app_nil_r in E. subst x. rewrite Ets in Hx. apply no_term_app in Hx as (_ & Hx).
    cbn in Hx. apply is_terminator_spec in Ht. rewrite Ht in Hx. discriminate. }
  destruct (match skip_trivia ts with TMeta _ _ :: _ => true | _ => false end) eqn:Em.
  - destruct (skip_trivia ts) as [|[] r] eqn:Es; try discriminate.
    rewrite <- rmi_skip, Es. apply vt_skip in Hv as Hv2. rewrite Es in Hv2.
    destruct (rmi_sound l s r Hv2) as (w & gaps & id & next & E & Hid & Hg & Hnn & Hr).
    rewrite Hr. destruct (skip_split next) as (tr2 & En & Htr2 & _).
    assert (Hgaps : all_trivia gaps).
    { eapply Forall_impl; [|exact Hg]. intros [] E0; try discriminate; exact I. }
    destruct (skip_trivia next) as [|t1 r1] eqn:Es1.
    { exfalso. apply (Hlast (tr ++ w ++ gaps ++ tr2) []); auto.
      - rewrite Esp, E, En, <- !app_assoc. reflexivity.
      - rewrite !existsb_app. rewrite (trivia_no_term tr), (g_ident_no_term w l id), (trivia_no_term gaps), (trivia_no_term tr2) by assumption. reflexivity. }
    destruct t1; cbn [is_defining_symbol negb]; try exact I.
    assert (Hne : id <> []).
    { apply (g_ident_name w l id Hid). rewrite E in Hv2. apply vt_app in Hv2. tauto. }
    destruct id as [|c id]; [congruence|].
    assert (Ets2 : ts = (tr ++ w ++ gaps ++ tr2 ++ [TDefining l0]) ++ r1).
    { rewrite Esp, E, En, <- !app_assoc. reflexivity. }
    assert (Hlen : length r1 <= length ts) by (rewrite Ets2, app_length; lia).
    rewrite Ets2 in Hone, Hv. apply one_end_tail in Hone. apply vt_app in Hv as (_ & Hv).
    apply safe_bind; [|intros; exact I].
    rewrite Ets2 at 1. apply safe_suffix. apply total_all; auto. unfold rd_fuel. lia.
  - destruct (rmi_none ts) as (id & Hr).
    { destruct (skip_trivia ts) as [|[] ?]; try exact I. discriminate. }
    rewrite Hr, skip_skip. destruct (skip_trivia ts) as [|t1 r1] eqn:Es.
    { exfalso. apply (Hlast tr []); auto. apply trivia_no_term; assumption. }
    destruct (is_terminator t1); exact I.
Qed.

(** ** A whole token list *)
Lemma append_sound : forall ts cur c rs, vt (cur ++ ts) -> append_loop cur ts = (c, Ok rs) ->
  exists w, cur ++ ts = w ++ c /\ g_syntax w rs.
Proof.
  induction ts as [|t ts IH]; intros cur c rs Hv H; cbn [append_loop] in H.
  - injection H as <- <-. exists []. rewrite app_nil_r. split; [reflexivity|constructor].
  - replace (cur ++ t :: ts) with ((cur ++ [t]) ++ ts) in * by (rewrite <- app_assoc; reflexivity).
    destruct (is_terminator t).
    + destruct (build_syntax_rule (cur ++ [t])) as [o| | |] eqn:Eb; try discriminate.
      destruct (append_loop [] ts) as [c' [rs'| | |]] eqn:Ea; try discriminate. injection H as <- <-.
      apply vt_app in Hv as (Hv1 & Hv2). apply IH in Ea as (w & E & Hg); [|exact Hv2].
      cbn [app] in E. exists ((cur ++ [t]) ++ w). split; [rewrite E, <- !app_assoc; reflexivity|].
      constructor; [apply build_sound; assumption|exact Hg].
    + apply (IH (cur ++ [t])); assumption.
Qed.

Lemma g_run_shape : forall w o, g_run w o -> exists a t, w = a ++ [t] /\ terminator t /\ existsb is_terminator a = false.
Proof.
  intros w o H. destruct H as [tr1 w l id tr2 l' body d t H1 Hid H2 Hd Ht|tr t Htr Ht].
  - exists (tr1 ++ w ++ tr2 ++ TDefining l' :: body), t.
    split; [rewrite <- !app_assoc; reflexivity|]. split; [exact Ht|].
    rewrite !existsb_app. cbn [existsb is_terminator orb].
    rewrite (trivia_no_term tr1), (g_ident_no_term w l id), (trivia_no_term tr2), (g_defs_no_term body d) by assumption. reflexivity.
  - exists tr, t. auto using trivia_no_term.
Qed.
Lemma append_run : forall a cur rest, existsb is_terminator a = false ->
  append_loop cur (a ++ rest) = append_loop (cur ++ a) rest.
Proof.
  induction a as [|x a IH]; intros cur rest H; [rewrite app_nil_r; reflexivity|].
  cbn in H. apply orb_false_iff in H as (Hx & H). cbn [app append_loop]. rewrite Hx, IH by exact H.
  rewrite <- app_assoc. reflexivity.
Qed.
Lemma append_complete : forall ts rs, g_syntax ts rs -> vt ts ->
  exists rs', append_loop [] ts = ([], Ok rs') /\ map (reloc_rule nowhere same) rs' = map (reloc_rule nowhere same) rs.
Proof.
  intros ts rs H. induction H as [|w o ts rs Hr _ IH]; intros Hv; [exists []; auto|].
  apply vt_app in Hv as (Hv1 & Hv2). destruct (IH Hv2) as (rs' & E & Em).
  destruct (build_complete w o Hv1 Hr) as (o' & Eb & Eo).
  destruct (g_run_shape w o Hr) as (a & t & -> & Ht & Ha).
  rewrite <- app_assoc, append_run by exact Ha. cbn [app append_loop].
  apply is_terminator_spec in Ht. rewrite Ht, Eb, E. exists (opt_list o' ++ rs').
  split; [reflexivity|]. rewrite !map_app, Em. f_equal.
  destruct o', o; cbn in *; congruence.
Qed.

Definition safe_but_count {A} (ts : list token) (r : res A) : Prop :=
  match r with
  | Ok _ | Err _ => True
  | Panic p => p = PIndex /\ count_before_close ts
  | OutOfFuel => False
  end.
Lemma count_more : forall a b c, count_before_close b -> count_before_close (a ++ b ++ c).
Proof.
  intros a b c (x & l & d & tr & t & y & -> & H1 & H2). exists (a ++ x), l, d, tr, t, (y ++ c).
  split; [rewrite <- !app_assoc; cbn; rewrite <- !app_assoc; reflexivity|auto].
Qed.
Lemma append_total : forall ts cur, vt (cur ++ ts) -> existsb is_terminator cur = false ->
  safe_but_count (cur ++ ts) (snd (append_loop cur ts)).
Proof.
  induction ts as [|t ts IH]; intros cur Hv Hc; cbn [append_loop]; [exact I|].
  replace (cur ++ t :: ts) with ((cur ++ [t]) ++ ts) in * by (rewrite <- app_assoc; reflexivity).
  destruct (is_terminator t) eqn:Et.
  - apply vt_app in Hv as (Hv1 & Hv2).
    assert (Ho : one_final_terminator (cur ++ [t]) = true).
    { apply one_final_spec. exists cur, t. apply is_terminator_spec in Et. auto. }
    pose proof (build_total (cur ++ [t]) Hv1 Ho) as Hs.
    assert (Hterm : trouble (cur ++ [t]) -> count_before_close ((cur ++ [t]) ++ ts)).
    { intros (x & l & s & tr & b & E & Htr & [->|(t' & b' & -> & Hcl)]).
      - exfalso. rewrite app_nil_r in E. apply is_terminator_spec in Et.
        assert (Hno : existsb is_terminator (TInteger l s :: tr) = false) by (cbn; apply trivia_no_term; exact Htr).
        destruct (exists_last (l:=TInteger l s :: tr) ltac:(discriminate)) as (y & z & Ez).
        rewrite Ez in E, Hno. rewrite app_assoc in E. apply app_inj_tail in E as (_ & <-).
        apply no_term_app in Hno as (_ & Hno). apply is_terminator_spec in Et. cbn in Hno. rewrite Et in Hno. discriminate.
      - apply (count_more [] (cur ++ [t]) ts). exists x, l, s, tr, t', b'. auto. }
    destruct (build_syntax_rule (cur ++ [t])) as [o|e|p|]; cbn [snd safe safe_but_count] in *; auto.
    + specialize (IH [] Hv2 eq_refl). cbn [app] in IH.
      destruct (append_loop [] ts) as [c [rs| | |]]; cbn [snd safe_but_count] in *; auto.
      destruct IH as (-> & IH). split; [reflexivity|].
      rewrite <- (app_nil_r ts). apply count_more. exact IH.
    + destruct Hs as (-> & Hs). auto.
  - apply IH; [exact Hv|]. rewrite existsb_app, Hc. cbn. rewrite Et. reflexivity.
Qed.
