(** Events of a parse. *)
From Coq Require Import String List NArith Arith Bool Lia.
From Verif Require Import Base Ident Tokenizer Ast Lex Syntax Io Graph Machine SpecText SpecSyntax SpecIo TextFacts SyntaxFacts IoFacts SpecParse SpecMachine SpecEvents Pure ParseFacts CodeFacts EvFacts MachineFacts.
Import ListNotations.
Open Scope nat_scope.

(** ** Nesting *)
Lemma nested_app : forall a, nested a -> forall b, nested b -> nested (a ++ b).
Proof.
  intros a H. induction H as [|d l t r H IH|d l l2 b a r Ha IHa Hr IHr]; intros b' Hb; cbn; auto.
  - apply ne_token. auto.
  - rewrite <- app_assoc. cbn. apply ne_pair; auto.
Qed.
Lemma nested_wrap : forall d l l2 b a, nested a -> nested (EvBegin d l b :: a ++ [EvEnd d l2 b]).
Proof. intros. apply ne_pair; [assumption|constructor]. Qed.
Lemma remove_begin : forall d l b a x, nested a -> a <> [] -> remove_pairs (EvBegin d l b :: a ++ x) = EvBegin d l b :: remove_pairs (a ++ x).
Proof. intros d l b a x H Hne. destruct H; [contradiction|reflexivity|reflexivity]. Qed.
Lemma remove_app : forall a, nested a -> forall x, remove_pairs (a ++ x) = remove_pairs a ++ remove_pairs x.
Proof.
  intros a H. induction H as [|d l t r H IH|d l l2 b a r Ha IHa Hr IHr]; intros x; [reflexivity| |].
  - cbn. rewrite IH. reflexivity.
  - destruct a as [|e a'] eqn:Ea; [cbn; apply IHr|]. rewrite <- Ea in *. assert (Hne : a <> []) by (subst; discriminate). clear Ea.
    cbn [app]. rewrite <- app_assoc. rewrite remove_begin by assumption. rewrite remove_begin by assumption. rewrite !IHa. cbn. rewrite IHr, <- app_assoc. reflexivity.
Qed.
Lemma remove_nested : forall a, nested a -> nested (remove_pairs a).
Proof.
  intros a H. induction H as [|d l t r H IH|d l l2 b a r Ha IHa Hr IHr]; [constructor|constructor; assumption|].
  destruct a as [|e a'] eqn:Ea; [exact IHr|]. rewrite <- Ea in *. assert (Hne : a <> []) by (subst; discriminate). clear Ea.
  rewrite remove_begin, remove_app by assumption. cbn. apply ne_pair; assumption.
Qed.
Lemma labels_begin : forall d l b a x, nested a -> a <> [] -> removed_labels_agree (EvBegin d l b :: a ++ x) = removed_labels_agree (a ++ x).
Proof. intros d l b a x H Hne. destruct H; [contradiction|reflexivity|reflexivity]. Qed.
Lemma labels_app : forall a, nested a -> forall x, removed_labels_agree (a ++ x) = removed_labels_agree x.
Proof.
  intros a H. induction H as [|d l t r H IH|d l l2 b a r Ha IHa Hr IHr]; intros x; [reflexivity|apply IH|].
  destruct a as [|e a'] eqn:Ea.
  - cbn. rewrite (proj2 (str_eqb_eq b b) eq_refl). apply IHr.
  - rewrite <- Ea in *. assert (Hne : a <> []) by (subst; discriminate). clear Ea.
    cbn [app]. rewrite <- app_assoc. rewrite labels_begin, IHa by assumption. cbn. apply IHr.
Qed.
Section Nest.
Variable rules : list rule.
Variable cfg : config.
Hypothesis Hcfg : nesting_scanners cfg.
Lemma ev_nested : forall n s o, ev rules cfg n s o -> match o with Match _ e | No _ _ e => nested e | Halt _ => True end.
Proof.
  intros n s o H. induction H; auto using nested; try (apply Hcfg in H; exact H);
    try (repeat constructor; fail); try (cbn in *; auto using nested_app; fail).
  - apply nested_wrap. exact IHev.
  - destruct o; cbn in *; auto using nested_app.
Qed.
End Nest.

(** ** The filter, by positions *)
Fixpoint keep_from (prev : bool) (es : list event) : list event :=
  match es with
  | [] => []
  | e :: r =>
      if is_begin (Some e) && is_end (nth_error r 0) || prev && is_end (Some e) then keep_from (is_begin (Some e)) r
      else e :: keep_from (is_begin (Some e)) r
  end.
Lemma remove_keep : forall n es, length es <= n -> remove_pairs es = keep_from false es.
Proof.
  induction n as [|n IH]; intros es H; destruct es as [|e r]; auto; [cbn in H; lia|]. cbn in H.
  destruct e as [d l t|d l b|d l b].
  - cbn. rewrite IH by lia. reflexivity.
  - destruct r as [|[d2 l2 t2|d2 l2 b2|d2 l2 b2] r2]; try reflexivity.
    + cbn [remove_pairs]. cbn in H. cbn [keep_from is_begin is_end nth_error andb orb]. change (remove_pairs (EvToken d2 l2 t2 :: r2)) with (EvToken d2 l2 t2 :: remove_pairs r2). rewrite (IH r2) by lia. reflexivity.
    + cbn in H. change (remove_pairs (EvBegin d l b :: EvBegin d2 l2 b2 :: r2)) with (EvBegin d l b :: remove_pairs (EvBegin d2 l2 b2 :: r2)).
      rewrite IH by (cbn; lia). cbn [keep_from is_begin is_end nth_error andb orb]. reflexivity.
    + cbn in H. cbn. apply IH. lia.
  - cbn. rewrite IH by lia. reflexivity.
Qed.
Lemma keep_positions : forall es pre, pre <> [] ->
  map snd (filter (fun ie => keeps (pre ++ es) (fst ie)) (combine (seq (length pre) (length es)) es)) =
  keep_from (Nat.leb 2 (length pre) && is_begin (nth_error pre (length pre - 1))) es.
Proof.
  induction es as [|e r IH]; intros pre Hne; [reflexivity|]. cbn [length seq combine filter map].
  specialize (IH (pre ++ [e]) ltac:(destruct pre; discriminate)). rewrite app_length in IH. cbn [length] in IH.
  rewrite Nat.add_1_r in IH. rewrite <- app_assoc in IH. cbn [app] in IH.
  assert (Hl : 1 <= length pre) by (destruct pre; [contradiction|cbn; lia]).
  assert (Hk : keeps (pre ++ e :: r) (length pre) =
    negb (is_begin (Some e) && is_end (nth_error r 0) || (Nat.leb 2 (length pre) && is_begin (nth_error pre (length pre - 1))) && is_end (Some e))).
  { unfold keeps, pair_at. replace (S (length pre - 1)) with (length pre) by lia. rewrite !(nth_error_app2 pre _ (le_n _)), Nat.sub_diag.
    rewrite (nth_error_app2 pre (e :: r) (n := S (length pre))) by lia. replace (S (length pre) - length pre) with 1 by lia. 
    rewrite (nth_error_app1 pre (e :: r) (n := length pre - 1)) by lia. change (nth_error (e :: r) 0) with (Some e). change (nth_error (e :: r) 1) with (nth_error r 0).
    rewrite (proj2 (Nat.leb_le 1 (length pre)) Hl). cbn [andb].
    replace (Nat.leb 1 (length pre - 1)) with (Nat.leb 2 (length pre)).
    2:{ destruct (length pre) as [|[|k]]; reflexivity. }
    rewrite negb_orb. destruct r; reflexivity. }
  cbn [fst]. rewrite Hk. replace (S (length pre) - 1) with (length pre) in IH by lia.
  rewrite (nth_error_app2 pre [e] (le_n _)), Nat.sub_diag in IH. cbn [nth_error] in IH.
  replace (Nat.leb 2 (S (length pre))) with true in IH by (symmetry; apply Nat.leb_le; lia). cbn [andb] in IH.
  cbn [keep_from]. destruct (is_begin (Some e) && is_end (nth_error r 0) || _)%bool; cbn [negb map snd]; rewrite IH; reflexivity.
Qed.
Lemma filter_positions : forall es, remove_empty_pairs es = without_pairs es.
Proof.
  intros [|e r]; [reflexivity|]. unfold without_pairs. cbn [length seq combine filter map fst].
  replace (keeps (e :: r) 0) with true by reflexivity. cbn [map snd]. unfold remove_empty_pairs. f_equal.
  rewrite (remove_keep _ r (le_n _)). pose proof (keep_positions r [e] ltac:(discriminate)) as K. cbn in K. rewrite <- K. reflexivity.
Qed.
(** What an empty pair in the result comes from. *)
Lemma remove_head : forall n es e r, length es <= n -> remove_pairs es = e :: r ->
  exists mid post, es = mid ++ e :: post /\ pairs mid.
Proof.
  induction n as [|n IH]; intros es e r Hn H; destruct es as [|x es]; try discriminate; cbn in Hn; try lia.
  destruct x as [d l t|d l b|d l b]; cbn in H.
  - injection H as <- <-. exists [], es. split; [reflexivity|constructor].
  - destruct es as [|[d2 l2 t2|d2 l2 b2|d2 l2 b2] r2]; try (injection H as <- <-; eexists [], _; split; [reflexivity|constructor]).
    cbn in Hn. destruct (IH r2 e r ltac:(lia) H) as (mid & post & -> & Hm). exists (EvBegin d l b :: EvEnd d2 l2 b2 :: mid), post.
    split; [reflexivity|constructor; exact Hm].
  - injection H as <- <-. exists [], es. split; [reflexivity|constructor].
Qed.
Lemma hollow_source : forall n es i d l b d2 l2 b2, length es <= n -> nth_error (remove_pairs es) i = Some (EvBegin d l b) ->
  nth_error (remove_pairs es) (S i) = Some (EvEnd d2 l2 b2) ->
  exists pre mid post, es = pre ++ EvBegin d l b :: mid ++ EvEnd d2 l2 b2 :: post /\ mid <> [] /\ pairs mid.
Proof.
  induction n as [|n IH]; intros es i d l b d2 l2 b2 Hn H1 H2; destruct es as [|x es]; try (destruct i; discriminate); cbn in Hn; try lia.
  assert (Hstep : forall y, remove_pairs (x :: es) = y :: remove_pairs es -> y = x ->
     (forall dd ll bb rr, x = EvBegin dd ll bb -> es <> EvEnd d2 l2 b2 :: rr) ->
     exists pre mid post, x :: es = pre ++ EvBegin d l b :: mid ++ EvEnd d2 l2 b2 :: post /\ mid <> [] /\ pairs mid).
  { intros y Ey -> Hx. rewrite Ey in H1, H2. destruct i as [|i]; cbn in H1, H2.
    - injection H1 as ->. destruct (remove_pairs es) as [|z r] eqn:Er; [discriminate|]. injection H2 as ->.
      destruct (remove_head (length es) es _ _ (le_n _) Er) as (mid & post & -> & Hm). exists [], mid, post. split; [reflexivity|]. split; [|exact Hm].
      intros ->. exact (Hx _ _ _ post eq_refl eq_refl).
    - destruct (IH es i d l b d2 l2 b2 ltac:(lia) H1 H2) as (pre & mid & post & -> & Hm). exists (x :: pre), mid, post. split; [reflexivity|exact Hm]. }
  destruct x as [dx lx tx|dx lx bx|dx lx bx].
  - eapply Hstep; [reflexivity|reflexivity|]. intros; discriminate.
  - destruct es as [|[dy ly ty|dy ly by_|dy ly by_] r2]; try (eapply Hstep; [reflexivity|reflexivity|]; intros; discriminate).
    cbn in H1, H2, Hn. destruct (IH r2 i d l b d2 l2 b2 ltac:(lia) H1 H2) as (pre & mid & post & -> & Hm).
    exists (EvBegin dx lx bx :: EvEnd dy ly by_ :: pre), mid, post. split; [reflexivity|exact Hm].
  - eapply Hstep; [reflexivity|reflexivity|]. intros; discriminate.
Qed.

(** ** Tokens *)
Lemma tokens_app : forall a b, tokens (a ++ b) = tokens a ++ tokens b.
Proof. induction a as [|[d l t|d l x|d l x] a IH]; intros b; cbn; rewrite ?IH, ?app_assoc; reflexivity. Qed.
Lemma tokens_remove : forall n es, length es <= n -> tokens (remove_pairs es) = tokens es.
Proof.
  induction n as [|n IH]; intros es H; destruct es as [|e r]; auto; [cbn in H; lia|]. cbn in H.
  destruct e as [d l t|d l b|d l b]; cbn; rewrite ?IH by lia; try reflexivity.
  destruct r as [|[d2 l2 t2|d2 l2 b2|d2 l2 b2] r2]; cbn in H; [reflexivity| | |].
  - cbn. rewrite IH by lia. reflexivity.
  - change (tokens (remove_pairs (EvBegin d2 l2 b2 :: r2)) = tokens (EvBegin d2 l2 b2 :: r2)). apply IH. cbn. lia.
  - exact (IH r2 ltac:(lia)).
Qed.
Lemma tokens_filter : forall es, tokens (remove_empty_pairs es) = tokens es.
Proof.
  intros [|e r]; [reflexivity|]. cbn. destruct e; rewrite ?(tokens_remove _ r (le_n _)); reflexivity.
Qed.
Lemma remove_in : forall n es e, length es <= n -> In e (remove_pairs es) -> In e es.
Proof.
  induction n as [|n IH]; intros es e H Hi; destruct es as [|x r]; auto; [cbn in H; lia|]. cbn in H.
  destruct x as [d l t|d l b|d l b].
  1,3: cbn in Hi; destruct Hi as [->|Hi]; [left; reflexivity|right; apply IH; [lia|exact Hi]].
  destruct r as [|[d2 l2 t2|d2 l2 b2|d2 l2 b2] r2]; cbn in H; [exact Hi| | |].
  - cbn in Hi. destruct Hi as [->|[->|Hi]]; [left; reflexivity|right; left; reflexivity|]. right; right. apply IH; [lia|exact Hi].
  - change (In e (EvBegin d l b :: remove_pairs (EvBegin d2 l2 b2 :: r2))) in Hi. destruct Hi as [->|Hi]; [left; reflexivity|].
    right. apply IH; [cbn; lia|exact Hi].
  - right; right. apply IH; [lia|exact Hi].
Qed.
Lemma in_text_app : forall s a b, in_text s a -> in_text s b -> in_text s (a ++ b).
Proof. intros s a b Ha Hb d l t Hi. apply in_app_or in Hi as [Hi|Hi]; eauto. Qed.
Lemma in_text_moved : forall s s' a, moved s s' -> in_text s' a -> in_text s a.
Proof.
  intros s s' a Hm H d l t Hi. destruct (H d l t Hi) as (w & s1 & s2 & H1 & H2 & H3).
  destruct (moved_trans _ _ _ Hm (ex_intro _ w H1)) as (w' & Hw'). exists w', s1, s2. auto.
Qed.
Lemma in_text_nil : forall s, in_text s [].
Proof. intros s d l t []. Qed.
Lemma in_text_one : forall s d w s', goes s w s' -> in_text s [EvToken d (p_at s) w].
Proof. intros s d w s' H d' l' t' [[= <- <- <-]|[]]. exists [], s, s'. split; [apply goes_nil|]. auto. Qed.
Section Tokens.
Variable rules : list rule.
Variable cfg : config.
Section Honest.
Hypothesis Hcfg : honest_scanners cfg.
Lemma ev_in_text : forall n s o, ev rules cfg n s o -> match o with Match _ e | No _ _ e => in_text s e | Halt _ => True end.
Proof.
  intros n s o H. induction H; auto using in_text_nil;
    try (match goal with E : SpecParse.ev _ _ ?b ?s (Match ?s' _), IH : in_text ?s' _ |- in_text ?s _ =>
           apply in_text_app; auto; eapply in_text_moved; [exact (ev_moved _ _ _ _ _ E)|exact IH] end).
  - eapply in_text_one. exact H.
  - apply Hcfg in H. exact H.
  - eapply in_text_moved; [|exact IHev]. exact (scanned_moved _ _ _ _ H).
  - eapply in_text_moved; [|exact IHev]. exact (scanned_moved _ _ _ _ H).
  - intros d0 l0 t Hi. cbn in Hi. destruct Hi as [Hi|Hi]; [discriminate|]. apply in_app_or in Hi as [Hi|[Hi|[]]]; [|discriminate]. exact (IHev d0 l0 t Hi).
  - pose proof (ev_moved _ _ _ _ _ H0) as Hm. destruct o as [s2 e2|l s2 e2|h]; cbn in *; auto; apply in_text_app; auto; eapply in_text_moved; eauto.
Qed.
End Honest.
Definition goes_on (o : outcome) : Prop := match o with No _ _ _ => False | _ => True end.
Definition leaves_none (o : outcome) : Prop := match o with No _ _ e => e = [] | _ => True end.
Lemma sure_ok : forall n s o, ev rules cfg n s o -> sure n -> goes_on o.
Proof.
  intros n s o H. induction H; intros Hs; try exact I; try (inversion Hs; subst; auto; fail).
  - apply IHev. constructor.
  - apply IHev. constructor.
  - inversion Hs; subst; [lia|]. auto.
  - inversion Hs; subst; [apply IHev2; constructor|]. apply IHev2. apply su_times. assumption.
  - inversion Hs; subst. apply IHev. apply su_times. assumption.
  - destruct t as [[k p] ex]. cbn in H. destruct p; try discriminate. destruct ex; try discriminate. destruct (N.eqb_spec k 1); [|discriminate]. injection H as ->.
    inversion Hs; subst. apply IHev. 
    match goal with K : sure (NTerm _) |- _ => inversion K; subst end. match goal with K : sure (NFactor _) |- _ => inversion K; subst end.
    match goal with K : sure (NPrim _) |- _ => inversion K; subst end. assumption.
  - inversion Hs; subst. destruct o; cbn; auto. apply IHev2. assumption.
  - apply IHev. inversion Hs as [| | | | | | | |d ds Hi Hd| | |]; subst. destruct Hi as [->|[]]. assumption.
  - inversion Hs as [| | | | | | | |d ds' Hi Hd| | |]; subst. exfalso. apply IHev. eapply su_alts; eauto.
  - inversion Hs as [| | | | | | | |d ds' Hi Hd| | |]; subst. exfalso. apply IHev. eapply su_alts; eauto.
  - apply IHev. inversion Hs as [| | | | | | | | |d' ds Hi Hd| |]; subst. destruct Hi as [->|[]]. assumption.
  - inversion Hs as [| | | | | | | | |d' ds' Hi Hd| |]; subst. destruct Hi as [->|Hi]; [exact (IHev1 Hd)|]. apply IHev2. eapply su_alts; eauto.
Qed.
Lemma clean_ok : forall n, clean n -> forall s o, ev rules cfg n s o -> leaves_none o.
Proof.
  intros n Hc. induction Hc as [n Hs|l w|l w|l w|l w|l d Hc IH|p Hc IH|n p Hn|f Hc IH|f e|t ts Hc IH Hs|d Hc IH|d1 d2 ds|ds|mn mx i b]; intros s o H.
  - pose proof (sure_ok _ _ _ H Hs). destruct o; [exact I|contradiction|exact I].
  - inversion H; subst; try exact I; reflexivity.
  - inversion H; subst; try exact I; reflexivity.
  - assert (G : ev rules cfg (NRef l w) s o) by (inversion H; subst; assumption). inversion G; subst; try exact I; reflexivity.
  - inversion H; subst; try exact I; reflexivity.
  - inversion H; subst. eapply IH. eassumption.
  - inversion H; subst; [eapply IH; eassumption|congruence].
  - assert (G : ev rules cfg (NTimes n n 0 (NPrim p)) s o) by (inversion H; subst; [congruence|assumption]). inversion G; subst; try exact I; reflexivity.
  - inversion H; subst. eapply IH. eassumption.
  - inversion H; subst; try exact I; reflexivity.
  - destruct (bare_group t) as [d|] eqn:Eb.
    + assert (Hd : ev rules cfg (NDefs d) s o) by (inversion H; subst; congruence).
      apply (IH s o). destruct t as [[k p] ex]. cbn in Eb. destruct p; try discriminate. destruct ex; try discriminate. destruct (N.eqb_spec k 1); [|discriminate]. injection Eb as ->. subst k.
      apply ev_term_plain, ev_factor_one, ev_grouped. exact Hd.
    + inversion H; subst; try congruence; try exact I.
      * destruct o0 as [|l0 s1 e1|]; cbn; try exact I. exfalso. eapply (sure_ok _ _ (No l0 s1 e1)); eassumption.
      * eapply (IH _ (No _ _ _)). eassumption.
  - inversion H; subst. eapply IH. eassumption.
  - inversion H; subst; try exact I; match goal with K : ev _ _ (NAlts _) _ (No _ _ _) |- _ => apply alts_no in K; exact (proj1 (proj2 K)) end.
  - destruct o as [|l s' e|]; try exact I. apply alts_no in H. exact (proj1 (proj2 H)).
  - inversion H; subst; try exact I; reflexivity.
Qed.
End Tokens.
