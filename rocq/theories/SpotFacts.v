(** Every text is read with exactly the locations of [SpecSpot]. *)
From Coq Require Import String List NArith Arith Bool Lia.
From Verif Require Import Base Ident Tokenizer Ast Lex SpecText TextFacts SpecTok TokFacts SpecGram GramFacts LexRun GramText SpecSyntax SpecLoc SpecSpot.
Import ListNotations.
Open Scope nat_scope.

Scheme spot_primary_mut := Minimality for spot_primary Sort Prop
  with spot_factor_mut := Minimality for spot_factor Sort Prop
  with spot_term_mut := Minimality for spot_term Sort Prop
  with spot_single_mut := Minimality for spot_single Sort Prop
  with spot_defs_mut := Minimality for spot_defs Sort Prop.
Combined Scheme spot_all_mut from spot_primary_mut, spot_factor_mut, spot_term_mut, spot_single_mut, spot_defs_mut.

(** Without the locations of empty sequences it is the grammar. *)
Lemma spot_gram :
  (forall e w p, spot_primary e w p -> g_primary w p) /\
  (forall e w f, spot_factor e w f -> g_factor w f) /\
  (forall e w t, spot_term e w t -> g_term w t) /\
  (forall e w s, spot_single e w s -> g_single w s) /\
  (forall e w d, spot_defs e w d -> g_defs w d).
Proof. apply spot_all_mut; intros; constructor; assumption. Qed.
Lemma spot_defs_gram : forall e w d, spot_defs e w d -> g_defs w d.
Proof. exact (proj2 (proj2 (proj2 (proj2 spot_gram)))). Qed.

(** Each derivation has its locations. *)
Lemma gram_spot :
  (forall w p, g_primary w p -> forall e, exists p', spot_primary e w p') /\
  (forall w f, g_factor w f -> forall e, exists f', spot_factor e w f') /\
  (forall w t, g_term w t -> forall e, exists t', spot_term e w t') /\
  (forall w s, g_single w s -> forall e, exists s', spot_single e w s') /\
  (forall w d, g_defs w d -> forall e, exists d', spot_defs e w d').
Proof.
  apply g_all_mut.
  - intros l s w d l' s' _ IH e. destruct (IH (last_loc w)) as (x & H). eexists. apply sp_optional. exact H.
  - intros l s w d l' s' _ IH e. destruct (IH (last_loc w)) as (x & H). eexists. apply sp_repeated. exact H.
  - intros l w d l' _ IH e. destruct (IH (last_loc w)) as (x & H). eexists. apply sp_grouped. exact H.
  - intros w l id H e. eexists. apply sp_meta. exact H.
  - intros l s q e. eexists. apply sp_terminal.
  - intros l s e. eexists. apply sp_special.
  - intros l e. eexists. apply sp_empty.
  - intros tr1 w tr2 p H1 _ IH H2 e. destruct (IH e) as (x & H). eexists. apply sp_once; eassumption.
  - intros tr1 l s tr2 l' tr3 w tr4 p H1 H2 H3 H4 Hn _ IH e. destruct (IH e) as (x & H). eexists. apply sp_times; eassumption.
  - intros w f _ IH e. destruct (IH e) as (x & H). eexists. apply sp_plain. exact H.
  - intros w f l w' x _ IH1 _ IH2 e. destruct (IH1 l) as (y & H). destruct (IH2 e) as (z & K). eexists. apply sp_except; eassumption.
  - intros w t _ IH e. destruct (IH e) as (x & H). eexists. apply sp_last_term. exact H.
  - intros w t l w' ts _ IH1 _ IH2 e. destruct (IH1 l) as (y & H). destruct (IH2 e) as (z & K). eexists. apply sp_concat; eassumption.
  - intros w t _ IH e. destruct (IH e) as (x & H). eexists. apply sp_last_def. exact H.
  - intros w t l c w' ts _ IH1 _ IH2 e. destruct (IH1 l) as (y & H). destruct (IH2 e) as (z & K). eexists. apply sp_alt; eassumption.
Qed.

Lemma last_loc_rev : forall all, match rev all with t :: _ => tok_loc t | [] => loc_new (of_string "<unknown>") end = last_loc all.
Proof.
  intros all. destruct all as [|x all]; [reflexivity|]. destruct (@exists_last _ (x :: all)) as (a & t & ->); [discriminate|].
  rewrite rev_app_distr. unfold last_loc. rewrite map_app. cbn [map rev app]. rewrite last_last. reflexivity.
Qed.
(** Where an empty sequence before [rest] is. *)
Definition next_loc (all rest : list token) : location := match skip_trivia rest with t :: _ => tok_loc t | [] => last_loc all end.

Definition cx_primary (e : location) (w : list token) (p : primary) : Prop :=
  forall f all tr1 tr2 rest, all_trivia tr1 -> all_trivia tr2 -> stops rest -> next_loc all rest = e -> vt (w ++ tr2 ++ rest) ->
    6 * length (tr1 ++ w ++ tr2 ++ rest) + 1 <= f ->
    exists next, read_syntactic_primary f all (tr1 ++ w ++ tr2 ++ rest) = Ok (p, next) /\ skip_trivia next = skip_trivia rest.
Definition cx_factor (e : location) (w : list token) (x : factor) : Prop :=
  forall f all rest, stops rest -> next_loc all rest = e -> vt (w ++ rest) -> 6 * length (w ++ rest) + 2 <= f ->
    exists next, read_syntactic_factor f all (w ++ rest) = Ok (x, next) /\ skip_trivia next = skip_trivia rest.
Definition cx_term (e : location) (w : list token) (x : term) : Prop :=
  forall f all rest, stops_term rest -> next_loc all rest = e -> vt (w ++ rest) -> 6 * length (w ++ rest) + 3 <= f ->
    exists next, read_syntactic_term f all (w ++ rest) = Ok (x, next) /\ skip_trivia next = skip_trivia rest.
Definition cx_single (e : location) (w : list token) (x : single_definition) : Prop :=
  forall f all rest, ends_or_sep rest -> next_loc all rest = e -> vt (w ++ rest) -> 6 * length (w ++ rest) + 4 <= f ->
    read_single_definition f all (w ++ rest) = Ok (x, rest).
Definition cx_defs (e : location) (w : list token) (x : definition_list) : Prop :=
  forall f all rest, ends_at rest -> next_loc all rest = e -> vt (w ++ rest) -> 6 * length (w ++ rest) + 5 <= f ->
    read_definition_list f all (w ++ rest) = Ok x.

Lemma spot_complete :
  (forall e w p, spot_primary e w p -> cx_primary e w p) /\
  (forall e w f, spot_factor e w f -> cx_factor e w f) /\
  (forall e w t, spot_term e w t -> cx_term e w t) /\
  (forall e w s, spot_single e w s -> cx_single e w s) /\
  (forall e w d, spot_defs e w d -> cx_defs e w d).
Proof.
  assert (Henc : forall o c w d tc tr1 tr2 rest topen f, brackets o c -> c tc = true ->
    spot_defs (last_loc w) w d -> cx_defs (last_loc w) w d -> vt ((topen :: w ++ [tc]) ++ tr2 ++ rest) -> all_trivia tr2 ->
    6 * length (tr1 ++ (topen :: w ++ [tc]) ++ tr2 ++ rest) + 1 <= S f ->
    find_close o c 0 (w ++ tc :: tr2 ++ rest) = Some (w, tr2 ++ rest) /\
      read_definition_list f w w = Ok d /\ skip_trivia (tr2 ++ rest) = skip_trivia rest).
  { intros o c w d tc tr1 tr2 rest topen f Hb Hc Hg Hd Hv Ht2 Hf.
    rewrite (enclosed_found o c w d tc (tr2 ++ rest) Hb (spot_defs_gram _ _ _ Hg) Hc).
    assert (Hv' : vt (w ++ [])).
    { rewrite app_nil_r. cbn [app] in Hv. apply vt_cons in Hv. rewrite <- !app_assoc in Hv. apply vt_app in Hv. tauto. }
    assert (Ed := Hd f w [] (or_introl eq_refl) eq_refl Hv').
    rewrite app_nil_r in Ed. rewrite Ed. 2:{ rewrite !app_length in Hf. cbn [length] in Hf. rewrite !app_length in Hf. cbn [length] in Hf. lia. }
    rewrite skip_app by assumption. auto. }
  assert (Hsk : forall tr1 t w, all_trivia tr1 -> triviab t = false -> skip_trivia (tr1 ++ t :: w) = t :: w).
  { intros. rewrite skip_app by assumption. apply skip_cons. assumption. }
  assert (Hnx : forall all rest, next_loc all (skip_trivia rest) = next_loc all rest) by (intros; unfold next_loc; rewrite skip_skip; reflexivity).
  assert (Hcons : forall all t rest, triviab t = false -> next_loc all (t :: rest) = tok_loc t) by (intros; unfold next_loc; rewrite skip_cons by assumption; reflexivity).
  apply spot_all_mut.
  - intros e l s w d l' s' Hg Hd f all tr1 tr2 rest H1 H2 Hs He Hv Hf. destruct f as [|f]; [lia|].
    destruct (Henc _ _ w d (TEndOption l' s') tr1 tr2 rest _ f br_option eq_refl Hg Hd Hv H2 Hf) as (E1 & E2 & E4).
    cbn [read_syntactic_primary app]. rewrite Hsk by (auto). rewrite <- app_assoc. cbn [app].
    rewrite (defs_not_end_group w d _ _ (spot_defs_gram _ _ _ Hg)) by reflexivity. rewrite andb_false_r, E1.
    cbn [bind]. rewrite E2. cbn [bind]. eexists. split; [reflexivity|exact E4].
  - intros e l s w d l' s' Hg Hd f all tr1 tr2 rest H1 H2 Hs He Hv Hf. destruct f as [|f]; [lia|].
    destruct (Henc _ _ w d (TEndRepeat l' s') tr1 tr2 rest _ f br_repeat eq_refl Hg Hd Hv H2 Hf) as (E1 & E2 & E4).
    cbn [read_syntactic_primary app]. rewrite Hsk by (auto). rewrite <- app_assoc. cbn [app].
    rewrite (defs_not_end_group w d _ _ (spot_defs_gram _ _ _ Hg)) by reflexivity. rewrite andb_false_r, E1.
    cbn [bind]. rewrite E2. cbn [bind]. eexists. split; [reflexivity|exact E4].
  - intros e l w d l' Hg Hd f all tr1 tr2 rest H1 H2 Hs He Hv Hf. destruct f as [|f]; [lia|].
    destruct (Henc _ _ w d (TEndGroup l') tr1 tr2 rest _ f br_group eq_refl Hg Hd Hv H2 Hf) as (E1 & E2 & E4).
    cbn [read_syntactic_primary app]. rewrite Hsk by (auto). rewrite <- app_assoc. cbn [app]. rewrite E1.
    cbn [bind]. rewrite E2. cbn [bind]. eexists. split; [reflexivity|exact E4].
  - intros e w l id Hid f all tr1 tr2 rest H1 H2 Hs He Hv Hf. destruct f as [|f]; [lia|].
    destruct (gaps_of_trivia tr2 rest H2 (stops_no_word _ Hs)) as (gaps & next & E & Hg & Hn & Es).
    rewrite E in Hv |- *. pose proof (rmi_complete w l id gaps next Hv Hid Hg Hn) as Hr.
    destruct Hid as [l s w ws HW HL HWs]. cbn [read_syntactic_primary app]. rewrite Hsk by auto.
    cbn [app] in Hr. rewrite Hr. eexists. split; [reflexivity|]. auto.
  - intros e l s q f all tr1 tr2 rest H1 H2 Hs He Hv Hf. destruct f as [|f]; [lia|].
    cbn [read_syntactic_primary app]. rewrite Hsk by auto. eexists. split; [reflexivity|]. rewrite skip_app by assumption. auto.
  - intros e l s f all tr1 tr2 rest H1 H2 Hs He Hv Hf. destruct f as [|f]; [lia|].
    cbn [read_syntactic_primary app]. rewrite Hsk by auto. eexists. split; [reflexivity|]. rewrite skip_app by assumption. auto.
  - intros e f all tr1 tr2 rest H1 H2 Hs He Hv Hf. destruct f as [|f]; [lia|].
    cbn [read_syntactic_primary app]. rewrite !skip_app by assumption. unfold stops in Hs. unfold next_loc in He.
    destruct (skip_trivia rest) as [|t r] eqn:E.
    + rewrite last_loc_rev, He. eexists. split; reflexivity.
    + destruct t; try discriminate; (rewrite He; eexists; split; [reflexivity|]; rewrite <- E; apply skip_skip).
  - (* once *)
    intros e tr1 w tr2 p H1 Hg Hp H2 f all rest Hs He Hv Hf. destruct f as [|f]; [lia|].
    cbn [read_syntactic_factor]. rewrite <- !app_assoc in *. rewrite skip_app by assumption.
    apply vt_app in Hv as (_ & Hv). pose proof (proj1 spot_gram _ _ _ Hg) as Hg'.
    destruct w as [|t w].
    + cbn [app] in *. rewrite skip_app by assumption.
      assert (Hs' : stops (skip_trivia rest)) by (unfold stops; rewrite skip_skip; exact Hs).
      destruct (Hp f all [] [] (skip_trivia rest) ltac:(constructor) ltac:(constructor) Hs' (eq_trans (Hnx _ _) He)) as (next & Ep & En).
      { cbn [app]. apply vt_app in Hv as (_ & Hv). apply vt_skip. exact Hv. }
      { cbn [app]. rewrite !app_length in Hf. pose proof (skip_length rest). lia. }
      cbn [app] in Ep. rewrite skip_skip in En.
      assert (Em : match skip_trivia rest with TInteger _ _ :: _ => False | _ => True end).
      { unfold stops in Hs. destruct (skip_trivia rest) as [|[] ?]; try exact I; discriminate. }
      exists next. destruct (skip_trivia rest) as [|t r] eqn:Ek; [cbn [bind]; rewrite Ep; auto|].
      destruct t; try destruct Em; (cbn [bind]; rewrite Ep; auto).
    + destruct (g_primary_head _ _ Hg' t w eq_refl) as (E & _ & Hi).
      destruct (Hp f all [] tr2 rest ltac:(constructor) H2 Hs He Hv) as (next & Ep & En).
      { cbn [app] in *. rewrite app_length in Hf. lia. }
      cbn [app] in *. rewrite skip_cons by assumption. exists next.
      destruct t; try (cbn [bind]; rewrite Ep; auto). destruct (Hi _ _ eq_refl).
  - (* times *)
    intros e tr1 l s tr2 l' tr3 w tr4 p H1 H2 H3 H4 Hle Hg Hp f all rest Hs He Hv Hf. destruct f as [|f]; [lia|].
    rewrite <- app_assoc in *. cbn [app] in *. rewrite <- app_assoc in *. cbn [app] in *. rewrite <- !app_assoc in *.
    cbn [read_syntactic_factor]. rewrite Hsk by auto.
    assert (Em : parse_u32 s = Some (numeral s)) by (apply parse_u32_some; auto). rewrite Em, Hsk by auto.
    cbn [bind]. apply vt_app in Hv as (_ & Hv). apply vt_cons in Hv. apply vt_app in Hv as (_ & Hv). apply vt_cons in Hv.
    apply vt_app in Hv as (_ & Hv). rewrite skip_app by assumption.
    assert (Hlen : 6 * length (w ++ tr4 ++ rest) + 1 <= f).
    { rewrite app_length in Hf. cbn [length] in Hf. rewrite app_length in Hf. cbn [length] in Hf. rewrite app_length in Hf. lia. }
    assert (E : exists next, read_syntactic_primary f all (skip_trivia (w ++ tr4 ++ rest)) = Ok (p, next) /\ skip_trivia next = skip_trivia rest).
    { destruct w as [|t w].
      - cbn [app] in *. rewrite skip_app by assumption.
        assert (Hs' : stops (skip_trivia rest)) by (unfold stops; rewrite skip_skip; exact Hs).
        destruct (Hp f all [] [] (skip_trivia rest) ltac:(constructor) ltac:(constructor) Hs' (eq_trans (Hnx _ _) He)) as (next & Ep & En).
        { cbn [app]. apply vt_app in Hv as (_ & Hv). apply vt_skip. exact Hv. }
        { cbn [app]. rewrite !app_length in Hlen. pose proof (skip_length rest). lia. }
        rewrite skip_skip in En. exists next. auto.
      - destruct (g_primary_head _ _ (proj1 spot_gram _ _ _ Hg) t w eq_refl) as (E & _). cbn [app]. rewrite skip_cons by assumption.
        exact (Hp f all [] tr4 rest ltac:(constructor) H4 Hs He Hv Hlen). }
    destruct E as (next & Ep & En). rewrite Ep. cbn [bind]. exists next. auto.
  - intros e w x Hg Hx f all rest (Hs & Hne) He Hv Hf. destruct f as [|f]; [lia|].
    cbn [read_syntactic_term]. destruct (Hx f all rest Hs He Hv ltac:(lia)) as (next & Ex & En).
    rewrite Ex. cbn [bind]. rewrite En. exists (skip_trivia rest). rewrite skip_skip. split; [|reflexivity].
    destruct (skip_trivia rest) as [|[] ?]; try reflexivity. destruct Hne.
  - intros e w x l w' y Hg Hx Hg' He f all rest (Hs & Hne) Hl Hv Hf. destruct f as [|f]; [lia|].
    cbn [read_syntactic_term]. rewrite <- app_assoc in *. cbn [app] in *.
    destruct (Hx f all (TExcept l :: w' ++ rest) (stops_cons (TExcept l) _ eq_refl) (Hcons _ (TExcept l) _ eq_refl) Hv ltac:(lia)) as (next & Ex & En).
    rewrite Ex. cbn [bind]. rewrite En, skip_cons by reflexivity.
    apply vt_app in Hv as (_ & Hv). apply vt_cons in Hv.
    destruct (He f all rest Hs Hl Hv) as (next' & Ee & En').
    { rewrite app_length in Hf. cbn [length] in Hf. lia. }
    rewrite Ee. cbn [bind]. exists next'. auto.
  - intros e w t Hg Ht f all rest He Hl Hv Hf. destruct f as [|f]; [lia|].
    cbn [read_single_definition]. destruct (ends_stops rest He) as (Hs & Hsk').
    destruct (Ht f all rest Hs Hl Hv ltac:(lia)) as (next & Et & En).
    rewrite Et. cbn [bind]. rewrite En, Hsk'.
    destruct He as [->|(t0 & r & -> & [H0|(l & c & ->)])]; try reflexivity. destruct t0; destruct H0; reflexivity.
  - intros e w t l w' ts Hg Ht Hg' Hts f all rest He Hl Hv Hf. destruct f as [|f]; [lia|].
    cbn [read_single_definition]. rewrite <- app_assoc in *. cbn [app] in *.
    assert (Hst : stops_term (TConcat l :: w' ++ rest)) by (split; [apply stops_cons; reflexivity|exact I]).
    destruct (Ht f all _ Hst (Hcons _ (TConcat l) _ eq_refl) Hv ltac:(lia)) as (next & Et & En).
    rewrite Et. cbn [bind]. rewrite En, skip_cons by reflexivity.
    apply vt_app in Hv as (_ & Hv). apply vt_cons in Hv.
    rewrite (Hts f all rest He Hl Hv); [reflexivity|]. rewrite app_length in Hf. cbn [length] in Hf. lia.
  - intros e w s Hg Hs f all rest He Hl Hv Hf. destruct f as [|f]; [lia|].
    cbn [read_definition_list]. destruct (ends_stops rest (ends_at_or_sep _ He)) as (_ & Hsk').
    rewrite (Hs f all rest (ends_at_or_sep _ He) Hl Hv ltac:(lia)). cbn [bind]. rewrite Hsk'.
    destruct He as [->|(t0 & r & -> & H0)]; [reflexivity|]. apply is_terminator_spec in H0. rewrite H0. reflexivity.
  - intros e w s l c w' ds Hg Hs Hg' Hds f all rest He Hl Hv Hf. destruct f as [|f]; [lia|].
    cbn [read_definition_list]. rewrite <- app_assoc in *. cbn [app] in *.
    assert (Hst : ends_or_sep (TDefSep l c :: w' ++ rest)) by (right; eexists _, _; split; [reflexivity|right; eauto]).
    rewrite (Hs f all _ Hst (Hcons _ (TDefSep l c) _ eq_refl) Hv ltac:(lia)). cbn [bind]. rewrite skip_cons by reflexivity. cbn [is_terminator].
    apply vt_app in Hv as (_ & Hv). apply vt_cons in Hv.
    rewrite (Hds f all rest He Hl Hv); [reflexivity|]. rewrite app_length in Hf. cbn [length] in Hf. lia.
Qed.

Lemma spot_run_gram : forall ts o, spot_run ts o -> g_run ts o.
Proof. intros ts o H. destruct H; constructor; auto. eapply spot_defs_gram. eassumption. Qed.
Lemma spot_syntax_gram : forall ts rs, spot_syntax ts rs -> g_syntax ts rs.
Proof. intros ts rs H. induction H; constructor; auto using spot_run_gram. Qed.
Lemma gram_spot_run : forall ts o, g_run ts o -> exists o', spot_run ts o'.
Proof.
  intros ts o H. destruct H as [tr1 w l id tr2 l' body d t H1 Hid H2 Hd Ht|tr t Htr Ht].
  - destruct (proj2 (proj2 (proj2 (proj2 gram_spot))) _ _ Hd (tok_loc t)) as (d' & K). eexists. apply sp_rule; eassumption.
  - eexists. apply sp_none; assumption.
Qed.
Lemma gram_spot_syntax : forall ts rs, g_syntax ts rs -> exists rs', spot_syntax ts rs'.
Proof.
  intros ts rs H. induction H as [|w o ts rs Hr _ (rs' & IH)]; [eexists; constructor|].
  destruct (gram_spot_run _ _ Hr) as (o' & K). eexists. apply sp_cons; eassumption.
Qed.
Lemma spot_build : forall ts o, vt ts -> spot_run ts o -> build_syntax_rule ts = Ok o.
Proof.
  intros ts o Hv H. pose proof (spot_run_gram _ _ H) as Hg. unfold build_syntax_rule.
  destruct (g_run_shape _ _ Hg) as (a0 & t0 & E0 & Ht0 & Ha0).
  replace (one_final_terminator ts) with true by (symmetry; apply one_final_spec; eauto). clear a0 t0 E0 Ht0 Ha0 Hg. cbn [negb].
  destruct H as [tr1 w l id tr2 l' body d t H1 Hid H2 Hd Ht|tr t Htr Ht].
  - remember (tr1 ++ w ++ tr2 ++ TDefining l' :: body ++ [t]) as ts eqn:Ets.
    assert (Hsk : skip_trivia ts = w ++ tr2 ++ TDefining l' :: body ++ [t]).
    { subst ts. rewrite skip_app by assumption. destruct Hid. apply skip_cons. reflexivity. }
    assert (Hv2 : vt (w ++ tr2 ++ TDefining l' :: body ++ [t])) by (rewrite <- Hsk; apply vt_skip; exact Hv).
    destruct (gaps_of_trivia tr2 (TDefining l' :: body ++ [t]) H2 I) as (gaps & next & E & Hg & Hn & Es).
    rewrite E in Hsk, Hv2. rewrite <- rmi_skip, Hsk, (rmi_complete w l id gaps next Hv2 Hid Hg Hn), Es.
    rewrite skip_cons by reflexivity. cbn [is_defining_symbol negb].
    assert (Hne : id <> []).
    { apply (g_ident_name w l id Hid). apply vt_app in Hv2. tauto. }
    destruct id as [|c id]; [congruence|].
    rewrite <- E in Hv2. apply vt_app in Hv2 as (_ & Hv2). apply vt_app in Hv2 as (_ & Hv2). apply vt_cons in Hv2.
    rewrite (proj2 (proj2 (proj2 (proj2 spot_complete))) _ body d Hd (rd_fuel ts) ts [t]); [reflexivity|right; eauto| |exact Hv2|].
    + unfold next_loc. rewrite skip_cons; [reflexivity|]. destruct t; destruct Ht; reflexivity.
    + unfold rd_fuel. subst ts. rewrite !app_length. cbn [length]. rewrite !app_length. cbn [length]. lia.
  - assert (Hsk : skip_trivia (tr ++ [t]) = [t]).
    { rewrite skip_app by assumption. apply skip_cons. destruct t; destruct Ht; reflexivity. }
    destruct (rmi_none (tr ++ [t])) as (id & ->).
    { rewrite Hsk. destruct t; destruct Ht; exact I. }
    rewrite skip_skip, Hsk. apply is_terminator_spec in Ht as Ht'. rewrite Ht'. reflexivity.
Qed.
Lemma spot_append : forall ts rs, spot_syntax ts rs -> vt ts -> append_loop [] ts = ([], Ok rs).
Proof.
  intros ts rs H. induction H as [|w o ts rs Hr _ IH]; intros Hv; [reflexivity|].
  apply vt_app in Hv as (Hv1 & Hv2). pose proof (spot_build w o Hv1 Hr) as Eb.
  destruct (g_run_shape w o (spot_run_gram _ _ Hr)) as (a & t & -> & Ht & Ha).
  rewrite <- app_assoc, append_run by exact Ha. cbn [app append_loop].
  apply is_terminator_spec in Ht. rewrite Ht, Eb, (IH Hv2). reflexivity.
Qed.
Lemma spot_unique : forall ts rs rs', vt ts -> spot_syntax ts rs -> spot_syntax ts rs' -> rs = rs'.
Proof. intros ts rs rs' Hv H1 H2. pose proof (spot_append _ _ H1 Hv) as E. rewrite (spot_append _ _ H2 Hv) in E. congruence. Qed.

(** The rules of a text, exactly. *)
Lemma spot_iff : forall name s rs, parse_str name s = Ok rs <-> exists ts, lexes (loc_new name) s ts /\ spot_syntax ts rs.
Proof.
  intros name s rs. split.
  - intros H. destruct (parse_sound _ _ _ H) as (ts & Hl & Hg). exists ts. split; [exact Hl|].
    destruct (gram_spot_syntax _ _ Hg) as (rs' & Hs). pose proof (spot_append _ _ Hs (lexes_vt _ _ _ Hl)) as Ha.
    assert (K : parse_str name s = Ok rs') by (apply parse_str_ok; eauto). rewrite H in K. injection K as ->. exact Hs.
  - intros (ts & Hl & Hs). apply parse_str_ok. eexists ts, _. split; [exact Hl|]. exact (spot_append _ _ Hs (lexes_vt _ _ _ Hl)).
Qed.

(** ** Locations that are not in the text *)
Notation U := unknown_loc.
Definition lost_at (p : primary) : Prop := exists q, inside q p /\ p_loc q = U.
Definition lost_factor (f : factor) : Prop := lost_at (f_prim f).
Definition lost_term (t : term) : Prop := lost_factor (t_factor t) \/ exists e, t_exc t = Some e /\ lost_factor e.
Definition lost_single (s : single_definition) : Prop := exists t, In t s /\ lost_term t.
Definition lost_defs (d : definition_list) : Prop := exists s, In s d /\ lost_single s.

Lemma lost_bracket : forall p l d, p = POptional l d \/ p = PRepeated l d \/ p = PGrouped l d -> l <> U -> lost_at p <-> lost_defs d.
Proof.
  intros p l d Hp Hl. split.
  - intros (q & Hi & Hq). destruct Hi as [p|q p d' l' s t Hp' Hs Ht Hi].
    + exfalso. destruct Hp as [->|[->| ->]]; exact (Hl Hq).
    + assert (d' = d) as -> by (destruct Hp as [->|[->| ->]], Hp' as [E|[E|E]]; try discriminate; injection E as _ ->; reflexivity).
      exists s. split; [exact Hs|]. exists t. split; [exact Ht|]. destruct Hi as [Hi|(e & He & Hi)]; [left; exists q; auto|right; exists e; split; [exact He|exists q; auto]].
  - intros (s & Hs & t & Ht & [(q & Hi & Hq)|(e & He & q & Hi & Hq)]); (exists q; split; [|exact Hq]; eapply inside_deeper; [exact Hp|exact Hs|exact Ht|]); [left; exact Hi|right; exists e; auto].
Qed.
Lemma lost_leaf : forall p, (forall l d, p <> POptional l d /\ p <> PRepeated l d /\ p <> PGrouped l d) -> lost_at p <-> p_loc p = U.
Proof.
  intros p Hp. split.
  - intros (q & Hi & Hq). destruct Hi as [p|q p d' l' s t Hp' Hs Ht Hi]; [exact Hq|]. destruct (Hp l' d') as (A & B & C). destruct Hp' as [->|[->| ->]]; contradiction.
  - intros E. exists p. split; [constructor|exact E].
Qed.

Definition no_close (w : list token) : Prop := forall t r, w = t :: r -> ~ closing t.
Definition no_open (w : list token) : Prop := forall r t, w = r ++ [t] -> ~ opening t.
Definition edge (w : list token) : Prop := no_close w /\ no_open w.
Lemma edge_app : forall a b, edge a -> edge b -> edge (a ++ b).
Proof.
  intros a b (A1 & A2) (B1 & B2). split.
  - intros t r E. destruct a as [|x a]; [exact (B1 t r E)|]. injection E as <- _. exact (A1 x a eq_refl).
  - intros r t E. destruct b as [|y b].
    + rewrite app_nil_r in E. exact (A2 r t E).
    + destruct (@exists_last _ (y :: b)) as (b' & z & Eb); [discriminate|]. rewrite Eb in *. rewrite app_assoc in E. apply app_inj_tail in E as (_ & <-). exact (B2 b' z eq_refl).
Qed.
Lemma edge_quiet : forall w, Forall (fun t => ~ opening t /\ ~ closing t) w -> edge w.
Proof.
  intros w H. split.
  - intros t r ->. inversion H; tauto.
  - intros r t ->. apply Forall_app in H as (_ & H). inversion H; tauto.
Qed.
Lemma quiet_trivia : forall w, all_trivia w -> Forall (fun t => ~ opening t /\ ~ closing t) w.
Proof. intros w H. eapply Forall_impl; [|exact H]. intros [] K; destruct K; cbn; tauto. Qed.
Lemma quiet_words : forall w, Forall word_or_gap w -> Forall (fun t => ~ opening t /\ ~ closing t) w.
Proof. intros w H. eapply Forall_impl; [|exact H]. intros [] K; destruct K; cbn; tauto. Qed.
Lemma edge_one : forall t, ~ opening t -> ~ closing t -> edge [t].
Proof. intros t A B. apply edge_quiet. repeat constructor; assumption. Qed.
Lemma edge_brackets : forall t w t', ~ closing t -> ~ opening t' -> edge (t :: w ++ [t']).
Proof.
  intros t w t' A B. split.
  - intros x r E. injection E as <- _. exact A.
  - intros r x E. change (t :: w ++ [t']) with ((t :: w) ++ [t']) in E. apply app_inj_tail in E as (_ & <-). exact B.
Qed.
Lemma edges :
  (forall w p, g_primary w p -> edge w) /\ (forall w f, g_factor w f -> edge w) /\ (forall w t, g_term w t -> edge w) /\
  (forall w s, g_single w s -> edge w) /\ (forall w d, g_defs w d -> edge w).
Proof.
  apply g_all_mut; intros.
  1-3: apply edge_brackets; cbn; tauto.
  - apply edge_quiet, quiet_words. eapply g_ident_word_or_gap. eassumption.
  - apply edge_one; cbn; tauto.
  - apply edge_one; cbn; tauto.
  - apply edge_quiet. constructor.
  - repeat apply edge_app; auto using edge_quiet, quiet_trivia.
  - change (tr1 ++ TInteger l s :: tr2 ++ TRepetition l' :: tr3 ++ w ++ tr4) with (tr1 ++ [TInteger l s] ++ tr2 ++ [TRepetition l'] ++ tr3 ++ w ++ tr4).
    repeat apply edge_app; auto using edge_quiet, quiet_trivia; apply edge_one; cbn; tauto.
  - assumption.
  - change (w ++ TExcept l :: w') with (w ++ [TExcept l] ++ w'). repeat apply edge_app; auto. apply edge_one; cbn; tauto.
  - assumption.
  - change (w ++ TConcat l :: w') with (w ++ [TConcat l] ++ w'). repeat apply edge_app; auto. apply edge_one; cbn; tauto.
  - assumption.
  - change (w ++ TDefSep l c :: w') with (w ++ [TDefSep l c] ++ w'). repeat apply edge_app; auto. apply edge_one; cbn; tauto.
Qed.

Lemma hollow_nil : ~ hollow [].
Proof. intros ([|x a] & t & t' & b & E & _); discriminate. Qed.
Lemma hollow_cons : forall t r, hollow (t :: r) <-> (opening t /\ exists t' r', r = t' :: r' /\ closing t') \/ hollow r.
Proof.
  intros t r. split.
  - intros ([|x a] & t1 & t2 & b & E & A & B).
    + injection E as -> ->. left. split; [exact A|]. eauto.
    + injection E as -> ->. right. exists a, t1, t2, b. auto.
  - intros [(A & t' & r' & -> & B)|(a & t1 & t2 & b & -> & A & B)].
    + exists [], t, t', r'. auto.
    + exists (t :: a), t1, t2, b. auto.
Qed.
Lemma hollow_app : forall a b, no_close b \/ no_open a -> hollow (a ++ b) <-> hollow a \/ hollow b.
Proof.
  induction a as [|x a IH]; intros b H; cbn [app].
  - pose proof hollow_nil. tauto.
  - rewrite !hollow_cons. rewrite IH. 2:{ destruct H as [H|H]; [left; exact H|right]. intros r t ->. exact (H (x :: r) t eq_refl). }
    destruct a as [|y a]; cbn [app].
    + split; [|intros [[(A & t' & r' & E & B)|K]|K]; [discriminate|auto|auto]].
      intros [(A & t' & r' & E & B)|K]; [|tauto]. exfalso. destruct H as [H|H]; [exact (H _ _ E B)|exact (H [] x eq_refl A)].
    + split.
      * intros [(A & t' & r' & E & B)|[K|K]]; [|tauto|tauto]. injection E as <- <-. left. left. split; [exact A|]. eauto.
      * intros [[(A & t' & r' & E & B)|K]|K]; [|tauto|tauto]. injection E as <- <-. left. split; [exact A|]. eauto.
Qed.
Lemma hollow_quiet : forall w, Forall (fun t => ~ opening t /\ ~ closing t) w -> ~ hollow w.
Proof. intros w H (a & t & t' & b & -> & A & _). apply Forall_app in H as (_ & H). inversion H; tauto. Qed.
Lemma hollow_brackets : forall t w t', edge w -> opening t -> closing t' -> hollow (t :: w ++ [t']) <-> w = [] \/ hollow w.
Proof.
  intros t w t' (E1 & E2) A B. rewrite hollow_cons. rewrite hollow_app by (right; exact E2).
  assert (K : ~ hollow [t']) by (rewrite hollow_cons; intros [(C & _)|C]; [destruct t'; destruct B; destruct C|exact (hollow_nil C)]).
  destruct w as [|x w]; cbn [app].
  - split; [auto|]. intros _. left. split; [exact A|]. eauto.
  - split.
    + intros [(_ & x' & r' & E & C)|[H|H]]; [|auto|contradiction]. injection E as <- <-. destruct (E1 _ _ eq_refl C).
    + intros [H|H]; [discriminate|auto].
Qed.

Definition known (w : list token) : Prop := Forall (fun t => tok_loc t <> U) w.
Lemma known_app : forall a b, known (a ++ b) -> known a /\ known b.
Proof. intros a b H. apply Forall_app in H. exact H. Qed.
Lemma last_known : forall w, known w -> last_loc w = U <-> w = [].
Proof.
  intros w H. split; [|intros ->; reflexivity]. intros E. destruct w as [|x w]; [reflexivity|]. exfalso.
  destruct (@exists_last _ (x :: w)) as (a & t & Ew); [discriminate|]. rewrite Ew in *. unfold last_loc in E. rewrite map_app in E. cbn [map] in E. rewrite last_last in E.
  apply known_app in H as (_ & H). inversion H; contradiction.
Qed.
Lemma lost_iff :
  (forall e w p, spot_primary e w p -> known w -> (e = U -> w = []) -> (lost_at p <-> hollow w \/ e = U)) /\
  (forall e w f, spot_factor e w f -> known w -> (e = U -> w = []) -> (lost_factor f <-> hollow w \/ e = U)) /\
  (forall e w t, spot_term e w t -> known w -> (e = U -> w = []) -> (lost_term t <-> hollow w \/ e = U)) /\
  (forall e w s, spot_single e w s -> known w -> (e = U -> w = []) -> (lost_single s <-> hollow w \/ e = U)) /\
  (forall e w d, spot_defs e w d -> known w -> (e = U -> w = []) -> (lost_defs d <-> hollow w \/ e = U)).
Proof.
  assert (Hbr : forall e t w t' l p d, (p = POptional l d \/ p = PRepeated l d \/ p = PGrouped l d) -> tok_loc t = l -> opening t -> closing t' ->
     spot_defs (last_loc w) w d -> (known w -> (last_loc w = U -> w = []) -> (lost_defs d <-> hollow w \/ last_loc w = U)) ->
     known (t :: w ++ [t']) -> (e = U -> t :: w ++ [t'] = []) -> (lost_at p <-> hollow (t :: w ++ [t']) \/ e = U)).
  { intros e t w t' l p d Hp El A B Hs IH Hk He. inversion Hk as [|x y Hl Hk']; subst. apply known_app in Hk' as (Hw & _).
    rewrite (lost_bracket _ _ _ Hp Hl), (IH Hw (proj1 (last_known _ Hw))), (last_known _ Hw).
    rewrite hollow_brackets; [|exact (proj2 (proj2 (proj2 (proj2 edges))) _ _ (spot_defs_gram _ _ _ Hs))|exact A|exact B].
    assert (e <> U) by (intros E; discriminate (He E)). tauto. }
  assert (Hleaf : forall p, (forall l d, p <> POptional l d /\ p <> PRepeated l d /\ p <> PGrouped l d) -> lost_at p <-> p_loc p = U) by exact lost_leaf.
  assert (Hsep : forall e w t w' l, tok_loc t = l -> ~ opening t -> ~ closing t -> known (w ++ t :: w') -> (e = U -> w ++ t :: w' = []) ->
     known w /\ known w' /\ l <> U /\ e <> U /\ (hollow (w ++ t :: w') <-> hollow w \/ hollow w')).
  { intros e w t w' l <- A B Hk He. apply known_app in Hk as (K1 & K2). inversion K2; subst. split; [exact K1|]. split; [assumption|]. split; [assumption|].
    split; [intros E; destruct w; discriminate (He E)|]. rewrite hollow_app by (left; intros x r E; injection E as <- _; exact B). rewrite hollow_cons. tauto. }
  apply spot_all_mut.
  - intros e l s w d l' s' Hs IH Hk He. eapply (Hbr e (TStartOption l s) w (TEndOption l' s')); try eassumption; try reflexivity; try exact I. left. reflexivity.
  - intros e l s w d l' s' Hs IH Hk He. eapply (Hbr e (TStartRepeat l s) w (TEndRepeat l' s')); try eassumption; try reflexivity; try exact I. right. left. reflexivity.
  - intros e l w d l' Hs IH Hk He. eapply (Hbr e (TStartGroup l) w (TEndGroup l')); try eassumption; try reflexivity; try exact I. right. right. reflexivity.
  - intros e w l id Hid Hk He. rewrite Hleaf by (repeat split; discriminate). pose proof (hollow_quiet _ (quiet_words _ (g_ident_word_or_gap _ _ _ Hid))) as Hh.
    destruct Hid as [l s w ws _ _ _]. inversion Hk; subst. cbn [p_loc tok_loc] in *. assert (e <> U) by (intros E; discriminate (He E)). tauto.
  - intros e l s q Hk He. rewrite Hleaf by (repeat split; discriminate). inversion Hk; subst. cbn [p_loc tok_loc] in *. assert (e <> U) by (intros E; discriminate (He E)).
    rewrite hollow_cons. pose proof hollow_nil. cbn [opening]. tauto.
  - intros e l s Hk He. rewrite Hleaf by (repeat split; discriminate). inversion Hk; subst. cbn [p_loc tok_loc] in *. assert (e <> U) by (intros E; discriminate (He E)).
    rewrite hollow_cons. pose proof hollow_nil. cbn [opening]. tauto.
  - intros e Hk He. rewrite Hleaf by (repeat split; discriminate). cbn [p_loc]. pose proof hollow_nil. tauto.
  - intros e tr1 w tr2 p H1 Hs IH H2 Hk He. apply known_app in Hk as (_ & Hk). apply known_app in Hk as (Hk & _).
    unfold lost_factor. cbn [f_prim]. rewrite IH; [|exact Hk|intros E; apply He in E; apply app_eq_nil in E as (_ & E); apply app_eq_nil in E as (E & _); exact E].
    pose proof (edge_quiet _ (quiet_trivia _ H1)) as (_ & Q1). pose proof (edge_quiet _ (quiet_trivia _ H2)) as (Q2 & _).
    rewrite (hollow_app tr1) by (right; exact Q1). rewrite (hollow_app w) by (left; exact Q2).
    pose proof (hollow_quiet _ (quiet_trivia _ H1)). pose proof (hollow_quiet _ (quiet_trivia _ H2)). tauto.
  - intros e tr1 l s tr2 l' tr3 w tr4 p H1 H2 H3 H4 Hn Hs IH Hk He.
    assert (e <> U) as Hne by (intros E; destruct tr1; discriminate (He E)).
    destruct (Hsep e tr1 (TInteger l s) (tr2 ++ TRepetition l' :: tr3 ++ w ++ tr4) l eq_refl (fun K => K) (fun K => K) Hk He) as (_ & Hk2 & _ & _ & ->).
    destruct (Hsep e tr2 (TRepetition l') (tr3 ++ w ++ tr4) l' eq_refl (fun K => K) (fun K => K) Hk2 (fun E => match Hne E with end)) as (_ & Hk3 & _ & _ & ->).
    apply known_app in Hk3 as (_ & Hk3). apply known_app in Hk3 as (Hk3 & _).
    unfold lost_factor. cbn [f_prim]. rewrite IH; [|exact Hk3|intros E; contradiction].
    pose proof (edge_quiet _ (quiet_trivia _ H3)) as (_ & Q1). pose proof (edge_quiet _ (quiet_trivia _ H4)) as (Q2 & _).
    rewrite (hollow_app tr3) by (right; exact Q1). rewrite (hollow_app w) by (left; exact Q2).
    pose proof (hollow_quiet _ (quiet_trivia _ H1)). pose proof (hollow_quiet _ (quiet_trivia _ H2)). pose proof (hollow_quiet _ (quiet_trivia _ H3)). pose proof (hollow_quiet _ (quiet_trivia _ H4)). tauto.
  - intros e w f Hs IH Hk He. unfold lost_term. cbn [t_factor t_exc]. rewrite (IH Hk He). split; [intros [K|(x & K & _)]; [exact K|discriminate]|auto].
  - intros e w f l w' x Hs1 IH1 Hs2 IH2 Hk He. destruct (Hsep e w (TExcept l) w' l eq_refl (fun K => K) (fun K => K) Hk He) as (K1 & K2 & Hl & Hne & ->).
    unfold lost_term. cbn [t_factor t_exc]. rewrite (IH1 K1 (fun E => match Hl E with end)). specialize (IH2 K2 (fun E => match Hne E with end)). split.
    + intros [[K|K]|(y & E & K)]; [tauto|contradiction|]. injection E as <-. tauto.
    + intros [[K|K]|K]; [tauto| |contradiction]. right. exists x. tauto.
  - intros e w t Hs IH Hk He. unfold lost_single. rewrite <- (IH Hk He). split; [intros (x & [<-|[]] & K); exact K|intros K; exists t; split; [left; reflexivity|exact K]].
  - intros e w t l w' ts Hs1 IH1 Hs2 IH2 Hk He. destruct (Hsep e w (TConcat l) w' l eq_refl (fun K => K) (fun K => K) Hk He) as (K1 & K2 & Hl & Hne & ->).
    specialize (IH1 K1 (fun E => match Hl E with end)). specialize (IH2 K2 (fun E => match Hne E with end)). split.
    + intros (x & [<-|Hx] & K); [tauto|]. assert (lost_single ts) by (exists x; auto). tauto.
    + intros [[K|K]|K]; [|destruct (proj2 IH2 (or_introl K)) as (x & Hx & Kx); exists x; split; [right; exact Hx|exact Kx]|contradiction].
      exists t. split; [left; reflexivity|tauto].
  - intros e w t Hs IH Hk He. unfold lost_defs. rewrite <- (IH Hk He). split; [intros (x & [<-|[]] & K); exact K|intros K; exists t; split; [left; reflexivity|exact K]].
  - intros e w t l c w' ts Hs1 IH1 Hs2 IH2 Hk He. destruct (Hsep e w (TDefSep l c) w' l eq_refl (fun K => K) (fun K => K) Hk He) as (K1 & K2 & Hl & Hne & ->).
    specialize (IH1 K1 (fun E => match Hl E with end)). specialize (IH2 K2 (fun E => match Hne E with end)). split.
    + intros (x & [<-|Hx] & K); [tauto|]. assert (lost_defs ts) by (exists x; auto). tauto.
    + intros [[K|K]|K]; [|destruct (proj2 IH2 (or_introl K)) as (x & Hx & Kx); exists x; split; [right; exact Hx|exact Kx]|contradiction].
      exists t. split; [left; reflexivity|tauto].
Qed.

Lemma lost_run : forall ts o, spot_run ts o -> known ts ->
  ((exists r p, o = Some r /\ part_of p r /\ p_loc p = U) <-> hollow ts).
Proof.
  intros ts o H Hk. destruct H as [tr1 w l id tr2 l' body d t H1 Hid H2 Hd Ht|tr t Htr Ht].
  - assert (Hk' : known (body ++ [t])).
    { apply known_app in Hk as (_ & Hk). apply known_app in Hk as (_ & Hk). apply known_app in Hk as (_ & Hk). inversion Hk; assumption. }
    apply known_app in Hk' as (Kb & Kt). assert (Htu : tok_loc t <> U) by (inversion Kt; assumption).
    pose proof (proj2 (proj2 (proj2 (proj2 lost_iff))) _ _ _ Hd Kb (fun E => match Htu E with end)) as Q.
    assert (Qt : ~ opening t /\ ~ closing t) by (destruct t; destruct Ht; cbn; tauto).
    change (tr1 ++ w ++ tr2 ++ TDefining l' :: body ++ [t]) with (tr1 ++ w ++ tr2 ++ [TDefining l'] ++ body ++ [t]).
    pose proof (quiet_trivia _ H1) as E1. pose proof (quiet_trivia _ H2) as E2. pose proof (quiet_words _ (g_ident_word_or_gap _ _ _ Hid)) as E3.
    assert (E4 : Forall (fun t => ~ opening t /\ ~ closing t) [TDefining l']) by (repeat constructor; cbn; tauto).
    assert (E5 : Forall (fun t => ~ opening t /\ ~ closing t) [t]) by (repeat constructor; tauto).
    rewrite (hollow_app tr1) by (right; exact (proj2 (edge_quiet _ E1))). rewrite (hollow_app w) by (right; exact (proj2 (edge_quiet _ E3))).
    rewrite (hollow_app tr2) by (right; exact (proj2 (edge_quiet _ E2))). rewrite (hollow_app [TDefining l']) by (right; exact (proj2 (edge_quiet _ E4))).
    rewrite (hollow_app body) by (left; exact (proj1 (edge_quiet _ E5))).
    pose proof (hollow_quiet _ E1). pose proof (hollow_quiet _ E2). pose proof (hollow_quiet _ E3). pose proof (hollow_quiet _ E4). pose proof (hollow_quiet _ E5).
    assert (K : (exists r p, Some (Rule l id d) = Some r /\ part_of p r /\ p_loc p = U) <-> lost_defs d).
    { split.
      - intros (r & p & E & (s & x & Hs & Hx & Hi) & Hp). injection E as <-. exists s. split; [exact Hs|]. exists x. split; [exact Hx|].
        destruct Hi as [Hi|(e & He & Hi)]; [left; exists p; auto|right; exists e; split; [exact He|exists p; auto]].
      - intros (s & Hs & x & Hx & [(p & Hi & Hp)|(e & He & p & Hi & Hp)]); (exists (Rule l id d), p; split; [reflexivity|]; split; [|exact Hp]; exists s, x; split; [exact Hs|]; split; [exact Hx|]); [left; exact Hi|right; exists e; auto]. }
    rewrite K, Q. tauto.
  - assert (Q : ~ hollow (tr ++ [t])).
    { apply hollow_quiet. apply Forall_app. split; [apply quiet_trivia; exact Htr|]. constructor; [|constructor]. destruct t; destruct Ht; cbn; tauto. }
    split; [intros (r & p & E & _); discriminate|contradiction].
Qed.
Lemma lost_syntax : forall ts rs, spot_syntax ts rs -> known ts ->
  ((exists r p, In r rs /\ part_of p r /\ p_loc p = U) <-> hollow ts).
Proof.
  intros ts rs H. induction H as [|w o ts rs Hr _ IH]; intros Hk.
  - split; [intros (r & p & [] & _)|intros K; destruct (hollow_nil K)].
  - apply known_app in Hk as (K1 & K2). specialize (IH K2). pose proof (lost_run _ _ Hr K1) as Q.
    destruct (g_run_shape _ _ (spot_run_gram _ _ Hr)) as (a & t & E & Ht & _).
    rewrite hollow_app.
    2:{ right. intros r x Ex. rewrite E in Ex. apply app_inj_tail in Ex as (_ & <-). destruct t; destruct Ht; cbn; tauto. }
    rewrite <- Q, <- IH. split.
    + intros (r & p & Hin & Hp). apply in_app_iff in Hin as [Hin|Hin]; [left|right; eauto]. destruct o as [r0|]; [|destruct Hin]. destruct Hin as [<-|[]]. eauto.
    + intros [(r & p & -> & Hp)|(r & p & Hin & Hp)]; exists r, p; (split; [|exact Hp]); [left; reflexivity|apply in_app_iff; right; exact Hin].
Qed.
