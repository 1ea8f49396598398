(** Reading panics exactly on the runs of [SpecTrip]. *)
From Coq Require Import String List NArith Arith Bool Lia.
From Verif Require Import Base Ident Tokenizer Ast Lex SpecText TextFacts SpecTok TokFacts SpecLex SpecGram SpecTrip
  TokRun LexRun GramFacts GramText SpecFault FaultFacts StopFacts.
Import ListNotations.
Open Scope nat_scope.

Scheme trips_primary_mut := Minimality for trips_primary Sort Prop
  with trips_factor_mut := Minimality for trips_factor Sort Prop
  with trips_term_mut := Minimality for trips_term Sort Prop
  with trips_single_mut := Minimality for trips_single Sort Prop
  with trips_defs_mut := Minimality for trips_defs Sort Prop.
Combined Scheme trips_mut from
  trips_primary_mut, trips_factor_mut, trips_term_mut, trips_single_mut, trips_defs_mut.

(** ** Brackets *)
Definition ko (k : bracket) : token -> bool :=
  match k with BOption => is_start_option | BRepeat => is_start_repeat | BGroup => is_start_group end.
Definition kc (k : bracket) : token -> bool :=
  match k with BOption => is_end_option | BRepeat => is_end_repeat | BGroup => is_end_group end.
Lemma ko_spec : forall k t, ko k t = true <-> opener k t.
Proof. intros [] []; cbn; split; intros; try discriminate; try exact I; try reflexivity; destruct H. Qed.
Lemma kc_spec : forall k t, kc k t = true <-> closer k t.
Proof. intros [] []; cbn; split; intros; try discriminate; try exact I; try reflexivity; destruct H. Qed.
Lemma ko_no : forall k t, ~ opener k t -> ko k t = false.
Proof. intros k t H. rewrite <- ko_spec in H. destruct (ko k t); congruence. Qed.
Lemma kc_no : forall k t, ~ closer k t -> kc k t = false.
Proof. intros k t H. rewrite <- kc_spec in H. destruct (kc k t); congruence. Qed.
Lemma ko_kc : forall k t, kc k t = true -> ko k t = false.
Proof. intros [] [] H; try discriminate; reflexivity. Qed.

Lemma paired_neutral : forall k w, paired k w -> neutral (ko k) (kc k) w.
Proof.
  intros k w H. induction H as [|t w Ho Hc _ IH|t w t' w' Ho _ IH Hc _ IH'].
  - apply neutral_nil.
  - apply (neutral_app _ _ [t]); [|exact IH]. apply neutral_one; [apply ko_no|apply kc_no]; assumption.
  - replace (t :: w ++ t' :: w') with ((t :: w ++ [t']) ++ w') by (cbn; rewrite <- app_assoc; reflexivity).
    apply neutral_app; [|exact IH']. apply kc_spec in Hc.
    apply neutral_bracket; [exact IH|apply ko_spec; exact Ho|apply (ko_kc k); exact Hc|exact Hc].
Qed.
Lemma paired_app : forall k a b, paired k a -> paired k b -> paired k (a ++ b).
Proof.
  intros k a b H Hb. induction H as [|t w Ho Hc _ IH|t w t' w' Ho Hw _ Hc Hw' IH']; [exact Hb| |].
  - cbn. constructor; assumption.
  - cbn. rewrite <- app_assoc. cbn. constructor; assumption.
Qed.
(** What [find_close] passes over: the paired runs and the closer of the open ones. *)
Fixpoint closed_at (k : bracket) (d : nat) (w : list token) : Prop :=
  match d with
  | O => paired k w
  | S d => exists w1 t w2, w = w1 ++ t :: w2 /\ paired k w1 /\ closer k t /\ closed_at k d w2
  end.
Lemma closed_other : forall k d t w, ~ opener k t -> ~ closer k t -> closed_at k d w -> closed_at k d (t :: w).
Proof.
  intros k [|d] t w Ho Hc H; cbn in *; [constructor; assumption|].
  destruct H as (w1 & t1 & w2 & -> & H1 & H2 & H3). exists (t :: w1), t1, w2.
  split; [reflexivity|]. split; [constructor; assumption|auto].
Qed.
Lemma closed_open : forall k d t w, opener k t -> closed_at k (S d) w -> closed_at k d (t :: w).
Proof.
  intros k [|d] t w Ho H; cbn in *; destruct H as (w1 & t1 & w2 & -> & H1 & H2 & H3).
  - constructor; assumption.
  - destruct H3 as (w3 & t3 & w4 & -> & H4 & H5 & H6).
    exists (t :: w1 ++ t1 :: w3), t3, w4. split; [cbn; rewrite <- app_assoc; reflexivity|].
    split; [constructor; assumption|auto].
Qed.
Lemma find_closed : forall k ts d a b, find_close (ko k) (kc k) d ts = Some (a, b) -> closed_at k d a.
Proof.
  intros k. induction ts as [|t ts IH]; intros d a b H; cbn [find_close] in H; [discriminate|].
  assert (K : forall d', match find_close (ko k) (kc k) d' ts with Some (a, b) => Some (t :: a, b) | None => None end
              = Some (a, b) -> exists a', a = t :: a' /\ closed_at k d' a').
  { intros d' E. destruct (find_close (ko k) (kc k) d' ts) as [[a' b']|] eqn:Ef; [|discriminate].
    injection E as <- <-. eauto. }
  destruct (ko k t) eqn:Eo.
  - apply K in H as (a' & -> & H). apply closed_open; [apply ko_spec; exact Eo|exact H].
  - destruct (kc k t) eqn:Ec.
    + destruct d as [|d].
      * injection H as <- <-. constructor.
      * apply K in H as (a' & -> & H). cbn. exists [], t, a'. split; [reflexivity|]. split; [constructor|].
        split; [apply kc_spec; exact Ec|exact H].
    + apply K in H as (a' & -> & H). apply closed_other; [| |exact H].
      * rewrite <- ko_spec. congruence.
      * rewrite <- kc_spec. congruence.
Qed.
Lemma find_paired : forall k w t rest, paired k w -> closer k t ->
  find_close (ko k) (kc k) 0 (w ++ t :: rest) = Some (w, rest).
Proof.
  intros k w t rest Hw Ht. rewrite (paired_neutral k w Hw). cbn [find_close]. apply kc_spec in Ht.
  rewrite (ko_kc k t Ht), Ht, app_nil_r. reflexivity.
Qed.

(** ** A panic comes from a run that trips *)
Definition stumbles {A} (P : list token -> Prop) (ts : list token) (r : res A) : Prop :=
  match r with Panic _ => P ts | _ => True end.
Lemma stumbles_bind : forall {A B} (P Q : list token -> Prop) ts (m : res A) (f : A -> res B),
  stumbles P ts m -> (P ts -> Q ts) -> (forall a, m = Ok a -> stumbles Q ts (f a)) -> stumbles Q ts (bind m f).
Proof. intros A B P Q ts [a|e|p|] f H I K; cbn in *; auto. Qed.
Lemma stumbles_impl : forall {A} (P Q : list token -> Prop) ts ts' (r : res A),
  stumbles P ts r -> (P ts -> Q ts') -> stumbles Q ts' r.
Proof. intros A P Q ts ts' [a|e|p|] H I; cbn in *; auto. Qed.

Lemma trips_primary_skip : forall tr w, all_trivia tr -> trips_primary w -> trips_primary (tr ++ w).
Proof.
  intros tr w Ht H. destruct H. rewrite app_assoc. econstructor; eauto. apply Forall_app. auto.
Qed.

Lemma panic_trips : forall f,
  (forall all ts, one_end ts -> vt ts -> stumbles trips_defs ts (read_definition_list f all ts)) /\
  (forall all ts, one_end ts -> vt ts -> stumbles trips_single ts (read_single_definition f all ts)) /\
  (forall all ts, one_end ts -> vt ts -> stumbles trips_term ts (read_syntactic_term f all ts)) /\
  (forall all ts, one_end ts -> vt ts -> stumbles trips_factor ts (read_syntactic_factor f all ts)) /\
  (forall all ts, one_end ts -> vt ts -> stumbles trips_primary ts (read_syntactic_primary f all ts)).
Proof.
  induction f as [|f (IHdl & IHsd & IHtm & IHfa & IHpr)]; [repeat split; intros; exact I|].
  destruct (sound_all f) as (Sdl & Ssd & Stm & Sfa & Spr).
  split; [|split; [|split; [|split]]]; intros all ts Ho Hv.
  - cbn [read_definition_list]. eapply stumbles_bind; [apply IHsd; assumption|apply trips_first_def|].
    intros (sd & next) E. destruct (Ssd _ _ _ _ Ho Hv E) as (w & Ets & Hg & He).
    destruct (ends_stops next He) as (_ & ->). destruct next as [|t r]; [exact I|].
    destruct (is_terminator t) eqn:Et; [exact I|].
    destruct He as [|(t' & r' & E' & Ht)]; [discriminate|]. injection E' as <- <-.
    destruct Ht as [Ht|(l & c & ->)]; [apply is_terminator_spec in Ht; congruence|].
    subst ts. apply one_end_tail in Ho. apply vt_app in Hv as (_ & Hv). apply (one_end_tail [_]) in Ho. apply vt_cons in Hv.
    pose proof (IHdl all r Ho Hv) as S.
    destruct (read_definition_list f all r) as [x|x|x|]; try exact I. cbn in *. econstructor; eassumption.
  - cbn [read_single_definition]. eapply stumbles_bind; [apply IHtm; assumption|apply trips_first_term|].
    intros (tm & next) E. destruct (Stm _ _ _ _ Ho Hv E) as (w & Ets & Hg).
    destruct (skip_split next) as (tr & En & Htr & _). destruct (skip_trivia next) as [|t r]; [exact I|].
    subst next ts. apply one_end_tail in Ho. apply one_end_tail in Ho. apply (one_end_tail [_]) in Ho.
    apply vt_app in Hv as (_ & Hv). apply vt_app in Hv as (_ & Hv). apply vt_cons in Hv.
    destruct t; try exact I. pose proof (IHsd all r Ho Hv) as S.
    destruct (read_single_definition f all r) as [(x & y)|x|x|]; try exact I. cbn in *.
    rewrite app_assoc. econstructor; [|exact S]. apply g_term_tail; eassumption.
  - cbn [read_syntactic_term]. eapply stumbles_bind; [apply IHfa; assumption|apply trips_plain|].
    intros (fa & next) E. destruct (Sfa _ _ _ _ Ho Hv E) as (w & Ets & Hg).
    destruct (skip_split next) as (tr & En & Htr & _). destruct (skip_trivia next) as [|t r]; [exact I|].
    subst next ts. apply one_end_tail in Ho. apply one_end_tail in Ho. apply (one_end_tail [_]) in Ho.
    apply vt_app in Hv as (_ & Hv). apply vt_app in Hv as (_ & Hv). apply vt_cons in Hv.
    destruct t; try exact I. pose proof (IHfa all r Ho Hv) as S.
    destruct (read_syntactic_factor f all r) as [(x & y)|x|x|]; try exact I. cbn in *.
    rewrite app_assoc. econstructor; [|exact S]. apply g_factor_tail; eassumption.
  - cbn [read_syntactic_factor]. destruct (skip_split ts) as (tr & Ets & Htr & _).
    remember (skip_trivia ts) as sk eqn:Es. clear Es. subst ts.
    apply one_end_tail in Ho. apply vt_app in Hv as (_ & Hv).
    assert (K : stumbles trips_factor (tr ++ sk)
      (let? (n, next) := Ok (1%N, sk) in let? (p, next) := read_syntactic_primary f all next in Ok (Factor n p, next))).
    { cbn [bind]. pose proof (IHpr all sk Ho Hv) as S.
      destruct (read_syntactic_primary f all sk) as [(x & y)|x|x|]; try exact I. cbn in *.
      apply trips_once, trips_primary_skip; assumption. }
    destruct sk as [|t r]; [exact K|]. destruct t; try exact K. clear K.
    destruct (parse_u32 s) as [n|] eqn:En; [|exact I]. apply parse_u32_some in En as (-> & Hn).
    destruct (skip_split r) as (tr2 & Er & Ht2 & _). destruct (skip_trivia r) as [|t2 r2] eqn:Es2.
    + cbn. rewrite Er, app_nil_r. constructor; assumption.
    + destruct t2; try exact I. cbn [bind]. subst r.
      apply (one_end_tail [_]) in Ho. apply one_end_tail in Ho. apply (one_end_tail [_]) in Ho.
      apply vt_cons in Hv. apply vt_app in Hv as (_ & Hv). apply vt_cons in Hv.
      destruct (skip_split r2) as (tr3 & Er2 & Ht3 & _). apply vt_skip in Hv.
      rewrite Er2 in Ho. apply one_end_tail in Ho.
      pose proof (IHpr all (skip_trivia r2) Ho Hv) as S. rewrite Er2 at 1.
      destruct (read_syntactic_primary f all (skip_trivia r2)) as [(x & y)|x|x|]; try exact I. cbn in *.
      apply trips_times; auto. apply trips_primary_skip; assumption.
  - cbn [read_syntactic_primary]. destruct (skip_split ts) as (tr & Ets & Htr & _).
    remember (skip_trivia ts) as sk eqn:Es. clear Es. subst ts.
    apply one_end_tail in Ho. apply vt_app in Hv as (_ & Hv). destruct sk as [|t0 r]; [exact I|].
    assert (K : forall k mk, opener k t0 ->
      stumbles trips_primary (tr ++ t0 :: r) (bind (match find_close (ko k) (kc k) 0 r with
             | Some (sub, nx) => let? d := read_definition_list f sub sub in Ok (d, nx)
             | None => Err {| e_loc := tok_loc t0; e_msg := MNotClosed (tok_name t0) (tok_debug t0) |}
             end) (fun '(d, nx) => Ok (mk d : primary, nx : list token)))).
    { intros k mk Hk. destruct (find_close (ko k) (kc k) 0 r) as [[sub nx]|] eqn:Ef; [|exact I].
      pose proof (find_closed _ _ _ _ _ Ef) as Hp. cbn in Hp.
      apply find_close_split in Ef as (tc & -> & Etc & _). apply kc_spec in Etc.
      apply (one_end_tail [t0]) in Ho. apply one_end_front in Ho; [|discriminate].
      apply vt_cons in Hv. apply vt_app in Hv as (Hv & _).
      pose proof (IHdl sub sub (or_introl Ho) Hv) as S.
      destruct (read_definition_list f sub sub) as [d|e|p|]; cbn in *; auto. econstructor; eassumption. }
    destruct t0; try exact I.
    + destruct (_ && _); [exact I|]. apply (K BOption). exact I.
    + destruct (_ && _); [exact I|]. apply (K BRepeat). exact I.
    + apply (K BGroup). exact I.
    + destruct (read_meta_identifier _) as ((? & ?) & ?). exact I.
Qed.

(** ** A run that trips panics *)
Lemma end_group_errs : forall f all l r, exists e, read_definition_list (S (S (S (S (S f))))) all (TEndGroup l :: r) = Err e.
Proof. intros. eexists. reflexivity. Qed.
Lemma trips_panic :
  (forall w, trips_primary w -> forall f all, vt w -> 6 * length w + 1 <= f -> read_syntactic_primary f all w = Panic PIndex) /\
  (forall w, trips_factor w -> forall f all, vt w -> 6 * length w + 2 <= f -> read_syntactic_factor f all w = Panic PIndex) /\
  (forall w, trips_term w -> forall f all, vt w -> 6 * length w + 3 <= f -> read_syntactic_term f all w = Panic PIndex) /\
  (forall w, trips_single w -> forall f all, vt w -> 6 * length w + 4 <= f -> read_single_definition f all w = Panic PIndex) /\
  (forall w, trips_defs w -> forall f all, vt w -> 6 * length w + 5 <= f -> read_definition_list f all w = Panic PIndex).
Proof.
  destruct complete_all as (_ & Cf & Ct & Cs & _).
  apply trips_mut.
  - intros tr k t w t' rest Htr Ho Hp Hc _ IH f all Hv Hf. destruct f as [|f]; [lia|].
    cbn [read_syntactic_primary]. rewrite skip_app by exact Htr.
    assert (Hn : triviab t = false) by (destruct k, t; destruct Ho; reflexivity). rewrite (skip_cons _ _ Hn).
    apply vt_app in Hv as (_ & Hv). apply vt_cons in Hv. apply vt_app in Hv as (Hv & _).
    rewrite app_length in Hf. cbn [length] in Hf. rewrite app_length in Hf. cbn [length] in Hf.
    pose proof (IH f w Hv ltac:(lia)) as Ep.
    assert (Hh : k <> BGroup -> match w ++ t' :: rest with x :: _ => is_end_group x | [] => false end = false).
    { intros Hk. destruct w as [|x w]; [destruct k, t'; destruct Hc; cbn; congruence|]. cbn [app].
      destruct x; try reflexivity. cbn [length] in Hf. do 5 (destruct f as [|f]; [lia|]).
      destruct (end_group_errs f (TEndGroup l :: w) l w) as (e & Ee). congruence. }
    pose proof (find_paired k w t' rest Hp Hc) as Ef.
    destruct k, t; destruct Ho; cbn [ko kc] in Ef; try rewrite Hh by discriminate; rewrite ?andb_false_r, Ef, Ep; reflexivity.
  - intros tr1 l s tr2 H1 H2 Hn f all Hv Hf. destruct f as [|f]; [lia|].
    cbn [read_syntactic_factor]. rewrite skip_app by exact H1. rewrite skip_cons by reflexivity.
    rewrite (proj2 (parse_u32_some s (numeral s)) (conj eq_refl Hn)).
    rewrite <- (app_nil_r tr2), skip_app by exact H2. reflexivity.
  - intros w Hp IH f all Hv Hf. destruct f as [|f]; [lia|].
    assert (E : exists t r, skip_trivia w = t :: r /\ match t with TInteger _ _ => False | _ => True end).
    { destruct Hp as [tr k t w t' rest Htr Ho Hp Hc _]. exists t, (w ++ t' :: rest).
      rewrite skip_app by exact Htr. destruct k, t; destruct Ho; split; try exact I; apply skip_cons; reflexivity. }
    destruct E as (t & r & Es & Ht). destruct (skip_split w) as (tr & Ew & Htr & _).
    pose proof (IH f all Hv ltac:(lia)) as Ep.
    assert (Ep' : read_syntactic_primary f all (skip_trivia w) = Panic PIndex).
    { destruct f as [|f]; [lia|]. rewrite <- Ep. cbn [read_syntactic_primary]. rewrite skip_skip. reflexivity. }
    cbn [read_syntactic_factor]. rewrite Es in *. destruct t; destruct Ht; cbn [bind]; rewrite Ep'; reflexivity.
  - intros tr1 l s tr2 l' w H1 H2 Hn _ IH f all Hv Hf. destruct f as [|f]; [lia|].
    cbn [read_syntactic_factor]. rewrite skip_app by exact H1. rewrite skip_cons by reflexivity.
    rewrite (proj2 (parse_u32_some s (numeral s)) (conj eq_refl Hn)).
    rewrite skip_app by exact H2. rewrite skip_cons by reflexivity. cbn [bind].
    apply vt_app in Hv as (_ & Hv). apply vt_cons in Hv. apply vt_app in Hv as (_ & Hv). apply vt_cons in Hv.
    rewrite app_length in Hf. cbn [length] in Hf. rewrite app_length in Hf. cbn [length] in Hf.
    pose proof (IH f all Hv ltac:(lia)) as Ep. destruct f as [|f]; [lia|].
    replace (read_syntactic_primary (S f) all (skip_trivia w)) with (read_syntactic_primary (S f) all w).
    + rewrite Ep. reflexivity.
    + cbn [read_syntactic_primary]. rewrite skip_skip. reflexivity.
  - intros w _ IH f all Hv Hf. destruct f as [|f]; [lia|]. cbn [read_syntactic_term]. rewrite IH by (auto; lia). reflexivity.
  - intros w x l w' Hg _ IH f all Hv Hf. destruct f as [|f]; [lia|]. cbn [read_syntactic_term].
    destruct (Cf w x Hg f all (TExcept l :: w')) as (x' & next & E & _ & En);
      [apply stops_cons; reflexivity|exact Hv|lia|].
    rewrite E. cbn [bind]. rewrite En, skip_cons by reflexivity.
    apply vt_app in Hv as (_ & Hv). apply vt_cons in Hv. rewrite app_length in Hf. cbn [length] in Hf.
    rewrite IH by (auto; lia). reflexivity.
  - intros w _ IH f all Hv Hf. destruct f as [|f]; [lia|]. cbn [read_single_definition]. rewrite IH by (auto; lia). reflexivity.
  - intros w x l w' Hg _ IH f all Hv Hf. destruct f as [|f]; [lia|]. cbn [read_single_definition].
    destruct (Ct w x Hg f all (TConcat l :: w')) as (x' & next & E & _ & En);
      [split; [apply stops_cons; reflexivity|rewrite skip_cons by reflexivity; exact I]|exact Hv|lia|].
    rewrite E. cbn [bind]. rewrite En, skip_cons by reflexivity.
    apply vt_app in Hv as (_ & Hv). apply vt_cons in Hv. rewrite app_length in Hf. cbn [length] in Hf.
    rewrite IH by (auto; lia). reflexivity.
  - intros w _ IH f all Hv Hf. destruct f as [|f]; [lia|]. cbn [read_definition_list]. rewrite IH by (auto; lia). reflexivity.
  - intros w x l c w' Hg _ IH f all Hv Hf. destruct f as [|f]; [lia|]. cbn [read_definition_list].
    destruct (Cs w x Hg f all (TDefSep l c :: w')) as (x' & E & _);
      [right; exists (TDefSep l c), w'; split; [reflexivity|right; eauto]|exact Hv|lia|].
    rewrite E. cbn [bind]. rewrite skip_cons by reflexivity. cbn [is_terminator].
    apply vt_app in Hv as (_ & Hv). apply vt_cons in Hv. rewrite app_length in Hf. cbn [length] in Hf.
    rewrite IH by (auto; lia). reflexivity.
Qed.

(** ** One rule *)
Lemma no_term_spec : forall w, existsb is_terminator w = false <-> ~ Exists terminator w.
Proof.
  intros w. split.
  - intros H K. apply Exists_exists in K as (t & Hi & Ht). apply is_terminator_spec in Ht.
    assert (existsb is_terminator w = true) by (apply existsb_exists; eauto). congruence.
  - intros H. destruct (existsb is_terminator w) eqn:E; [|reflexivity]. exfalso. apply H.
    apply existsb_exists in E as (t & Hi & Ht). apply Exists_exists. apply is_terminator_spec in Ht. eauto.
Qed.
Lemma run_shape : forall ts, trips_run ts -> exists a t, ts = a ++ [t] /\ terminator t /\ existsb is_terminator a = false.
Proof.
  intros ts (tr1 & w & l & id & tr2 & l' & body & t & -> & H1 & Hid & H2 & Hd & Ht & Hb).
  exists (tr1 ++ w ++ tr2 ++ TDefining l' :: body), t.
  split; [rewrite <- !app_assoc; reflexivity|]. split; [exact Ht|]. apply no_term_spec in Hb.
  rewrite !existsb_app. cbn [existsb is_terminator orb].
  rewrite (trivia_no_term tr1), (g_ident_no_term w l id), (trivia_no_term tr2), Hb by assumption. reflexivity.
Qed.
Lemma build_panics : forall ts, vt ts -> trips_run ts -> build_syntax_rule ts = Panic PIndex.
Proof.
  intros ts Hv H. unfold build_syntax_rule.
  rewrite (proj2 (one_final_spec ts) (run_shape ts H)). cbn [negb].
  destruct H as (tr1 & w & l & id & tr2 & l' & body & t & Ets & H1 & Hid & H2 & Hd & Ht & Hb).
  assert (Hsk : skip_trivia ts = w ++ tr2 ++ TDefining l' :: body ++ [t]).
  { subst ts. rewrite skip_app by assumption. destruct Hid. apply skip_cons. reflexivity. }
  assert (Hv2 : vt (w ++ tr2 ++ TDefining l' :: body ++ [t])) by (rewrite <- Hsk; apply vt_skip; exact Hv).
  destruct (gaps_of_trivia tr2 (TDefining l' :: body ++ [t]) H2 I) as (gaps & next & E & Hg & Hn & Es).
  rewrite E in Hsk, Hv2. rewrite <- rmi_skip, Hsk, (rmi_complete w l id gaps next Hv2 Hid Hg Hn), Es.
  rewrite skip_cons by reflexivity. cbn [is_defining_symbol negb].
  assert (Hne : id <> []).
  { apply (g_ident_name w l id Hid). apply vt_app in Hv2. tauto. }
  destruct id as [|c id]; [congruence|].
  rewrite <- E in Hv2. apply vt_app in Hv2 as (_ & Hv2). apply vt_app in Hv2 as (_ & Hv2). apply vt_cons in Hv2.
  rewrite (proj2 (proj2 (proj2 (proj2 trips_panic))) _ Hd (rd_fuel ts) ts Hv2); [reflexivity|].
  unfold rd_fuel. subst ts. rewrite !app_length. cbn [length]. rewrite !app_length. cbn [length]. lia.
Qed.
Lemma build_trips : forall ts p, vt ts -> one_final_terminator ts = true -> build_syntax_rule ts = Panic p -> trips_run ts.
Proof.
  intros ts p Hv Ho H. unfold build_syntax_rule in H. rewrite Ho in H. cbn [negb] in H.
  apply one_final_spec in Ho as (a & t & Ets & Ht & Ha).
  destruct (skip_split ts) as (tr & Esp & Htr & Hn).
  assert (Hone : one_end ts) by (right; eauto).
  assert (Hlast : forall x b, ts = x ++ b -> b = [] -> existsb is_terminator x = false -> False).
  { intros x b E -> Hx. rewrite app_nil_r in E. subst x. rewrite Ets in Hx. apply no_term_app in Hx as (_ & Hx).
    cbn in Hx. apply is_terminator_spec in Ht. rewrite Ht in Hx. discriminate. }
  destruct (match skip_trivia ts with TMeta _ _ :: _ => true | _ => false end) eqn:Em.
  - destruct (skip_trivia ts) as [|[] r] eqn:Es; try discriminate.
    rewrite <- rmi_skip, Es in H. apply vt_skip in Hv as Hv2. rewrite Es in Hv2.
    destruct (rmi_sound l s r Hv2) as (w & gaps & id & next & E & Hid & Hg & Hnn & Hr).
    rewrite Hr in H. destruct (skip_split next) as (tr2 & En & Htr2 & _).
    assert (Hgaps : all_trivia gaps).
    { eapply Forall_impl; [|exact Hg]. intros [] E0; try discriminate; exact I. }
    destruct (skip_trivia next) as [|t1 r1] eqn:Es1.
    { exfalso. apply (Hlast (tr ++ w ++ gaps ++ tr2) []); auto.
      - rewrite Esp, E, En, <- !app_assoc. reflexivity.
      - rewrite !existsb_app. rewrite (trivia_no_term tr), (g_ident_no_term w l id), (trivia_no_term gaps), (trivia_no_term tr2) by assumption. reflexivity. }
    destruct t1; cbn [is_defining_symbol negb] in H; try discriminate.
    assert (Hne : id <> []).
    { apply (g_ident_name w l id Hid). rewrite E in Hv2. apply vt_app in Hv2. tauto. }
    destruct id as [|c id]; [congruence|].
    assert (Ets2 : ts = (tr ++ w ++ gaps ++ tr2 ++ [TDefining l0]) ++ r1).
    { rewrite Esp, E, En, <- !app_assoc. reflexivity. }
    assert (Hone1 : one_end r1) by (rewrite Ets2 in Hone; apply one_end_tail in Hone; exact Hone).
    assert (Hv1 : vt r1) by (rewrite Ets2 in Hv; apply vt_app in Hv; tauto).
    pose proof (proj1 (panic_trips (rd_fuel ts)) ts r1 Hone1 Hv1) as S.
    destruct (read_definition_list (rd_fuel ts) ts r1) as [x|x|x|]; try discriminate. cbn in S.
    assert (Hr1 : r1 <> []).
    { intros ->. apply (Hlast _ [] Ets2 eq_refl). rewrite !existsb_app. cbn [existsb is_terminator orb].
      rewrite (trivia_no_term tr), (g_ident_no_term w l (c :: id)), (trivia_no_term gaps), (trivia_no_term tr2) by assumption. reflexivity. }
    destruct (exists_last Hr1) as (body & t' & ->). rewrite app_assoc in Ets2. rewrite Ets2 in Ets.
    apply app_inj_tail in Ets as (<- & ->).
    exists tr, w, l, (c :: id), (gaps ++ tr2), l0, body, t.
    split; [rewrite Ets2, <- !app_assoc; reflexivity|]. repeat (split; [solve [assumption | apply Forall_app; auto]|]).
    apply no_term_spec. apply no_term_app in Ha. tauto.
  - destruct (rmi_none ts) as (id & Hr).
    { destruct (skip_trivia ts) as [|[] ?]; try exact I. discriminate. }
    rewrite Hr, skip_skip in H. destruct (skip_trivia ts) as [|t1 r1] eqn:Es.
    { exfalso. apply (Hlast tr []); auto. apply trivia_no_term; assumption. }
    destruct (is_terminator t1); discriminate.
Qed.

(** ** A whole token list *)
Lemma append_panics : forall w rs, g_syntax w rs -> forall run rest, vt (w ++ run) -> trips_run run ->
  snd (append_loop [] (w ++ run ++ rest)) = Panic PIndex.
Proof.
  intros w rs H. induction H as [|w o ts rs Hr _ IH]; intros run rest Hv Hs.
  - cbn [app] in *. pose proof (build_panics run Hv Hs) as Eb. destruct (run_shape run Hs) as (a & t & -> & Ht & Ha).
    rewrite <- app_assoc, append_run by exact Ha. cbn [app append_loop].
    apply is_terminator_spec in Ht. rewrite Ht, Eb. reflexivity.
  - rewrite <- app_assoc in Hv |- *. apply vt_app in Hv as (Hv1 & Hv2). specialize (IH run rest Hv2 Hs).
    destruct (build_complete w o Hv1 Hr) as (o' & Eb & Eo).
    destruct (g_run_shape w o Hr) as (a & t & -> & Ht & Ha).
    rewrite <- app_assoc, append_run by exact Ha. cbn [app append_loop].
    apply is_terminator_spec in Ht. rewrite Ht, Eb.
    destruct (append_loop [] (ts ++ run ++ rest)) as [c r]. cbn [snd] in IH. subst r. reflexivity.
Qed.
Lemma append_trips : forall ts cur p, vt (cur ++ ts) -> existsb is_terminator cur = false ->
  snd (append_loop cur ts) = Panic p -> trips (cur ++ ts).
Proof.
  induction ts as [|t ts IH]; intros cur p Hv Hc H; cbn [append_loop] in H; [discriminate|].
  replace (cur ++ t :: ts) with ((cur ++ [t]) ++ ts) in * by (rewrite <- app_assoc; reflexivity).
  destruct (is_terminator t) eqn:Et.
  - apply vt_app in Hv as (Hv1 & Hv2).
    assert (Ho : one_final_terminator (cur ++ [t]) = true).
    { apply one_final_spec. exists cur, t. apply is_terminator_spec in Et. auto. }
    destruct (build_syntax_rule (cur ++ [t])) as [o|e|q|] eqn:Eb; try discriminate.
    + destruct (append_loop [] ts) as [c [rs|e|q|]] eqn:Ea; try discriminate.
      destruct (IH [] q Hv2 eq_refl) as (w & rs & run & rest & E & Hg & Hr); [rewrite Ea; reflexivity|].
      cbn [app] in E. exists ((cur ++ [t]) ++ w), (opt_list o ++ rs), run, rest.
      split; [rewrite E, <- !app_assoc; reflexivity|]. split; [|exact Hr].
      constructor; [apply build_sound; assumption|exact Hg].
    + exists [], [], (cur ++ [t]), ts. split; [reflexivity|]. split; [constructor|].
      apply (build_trips _ q); assumption.
  - apply (IH (cur ++ [t]) p); [exact Hv| |exact H].
    rewrite existsb_app, Hc. cbn. rewrite Et. reflexivity.
Qed.
Lemma append_exact : forall ts, vt ts -> (exists p, snd (append_loop [] ts) = Panic p) <-> trips ts.
Proof.
  intros ts Hv. split.
  - intros (p & H). apply (append_trips ts [] p Hv eq_refl H).
  - intros (w & rs & run & rest & -> & Hg & Hr). exists PIndex. apply (append_panics w rs Hg); [|exact Hr].
    rewrite app_assoc in Hv. apply vt_app in Hv. tauto.
Qed.

(** ** Texts *)
Lemma trips_more : forall a b, trips a -> trips (a ++ b).
Proof.
  intros a b (w & rs & run & rest & -> & H). exists w, rs, run, (rest ++ b).
  split; [rewrite <- !app_assoc; reflexivity|exact H].
Qed.
Lemma frags_trips0 : forall name fs p, lex_fragments name 0 fs = Panic p ->
  p = PIndex /\ exists u v ts, frags_text fs = u ++ v /\ lexes (loc_new name) u ts /\ trips ts.
Proof.
  intros name fs p0 H0. pose proof (frags_panic0 name fs) as Hf. rewrite H0 in Hf. destruct Hf as (-> & _).
  split; [reflexivity|]. set (s := frags_text fs).
  destruct (tl_steps (loc_new name) s) as (ts & l' & b' & Hs & Hcase).
  assert (Hend : forall t n, read_next l' b' false <> Ok (Some (t, n))).
  { intros t n. destruct Hcase as [(H & _)|(e & H & _)]; rewrite H; congruence. }
  pose proof (feed_run fs (lx_new name 0) ts l' b' (good_new _ _) eq_refl Hs Hend) as Hrun.
  cbn [lx_new lx_tokens] in Hrun.
  destruct (steps_lexes _ _ _ _ _ Hs) as (u & Eu & Hlu).
  assert (Hvt : vt ([] ++ ts)) by (cbn; apply valid_vt; eapply steps_valid; exact Hs).
  pose proof (append_total ts [] Hvt eq_refl) as Hsafe. cbn [app] in Hsafe.
  pose proof (append_trips ts [] PIndex Hvt eq_refl) as Hst. cbn [app] in Hst.
  assert (Hfeed : forall (x : res (list rule)), (forall rs, x <> Ok rs) -> snd (feed (lx_new name 0) fs) = x ->
            lex_fragments name 0 fs = x).
  { intros x Hx E. unfold lex_fragments. destruct (feed (lx_new name 0) fs) as [lx r]. cbn [snd] in E. subst r.
    destruct x; try reflexivity. exfalso. eapply Hx. reflexivity. }
  destruct (append_loop [] ts) as [c [rs|g|p|]] eqn:Ea; cbn [snd safe_but_count] in Hsafe, Hst.
  - destruct Hcase as [(Hstp & _)|(e & He & _)].
    2:{ rewrite He in Hrun. rewrite (Hfeed (Err e)) in H0; [discriminate|intros ? ?; discriminate|exact Hrun]. }
    rewrite Hstp in Hrun. unfold lex_fragments in H0. rewrite Hrun in H0. cbn [bind] in H0.
    unfold lx_flush in H0. cbn [lx_tk] in H0. rewrite flushed_tail in H0 by exact Hstp.
    destruct (flushed l' b') as [ts2|] eqn:Ef.
    + cbn [lx_append lx_tokens] in H0.
      assert (Hl : lexes (loc_new name) s (ts ++ ts2)) by (apply lexes_steps; exists ts, l', b', ts2; auto).
      pose proof (append_trips (ts ++ ts2) [] PIndex (lexes_vt _ _ _ Hl) eq_refl) as Hs2. cbn [app] in Hs2.
      rewrite append_loop_app, Ea in Hs2.
      exists s, [], (ts ++ ts2). rewrite app_nil_r. split; [reflexivity|]. split; [exact Hl|]. apply Hs2.
      destruct (append_loop c ts2) as [c2 [rs2|g|p|]]; cbn [snd first_rule bind] in *; congruence.
    + cbn [lx_append] in H0. unfold flushed in Ef. destruct b' as [|ch r]; [discriminate|].
      pose proof (read_next_no_panic l' (ch :: r) true) as Hp.
      destruct (read_next l' (ch :: r) true) as [[[t n]|]|e|p|] eqn:E; try discriminate; try (destruct Hp; fail).
  - exfalso. destruct (read_next l' b' false) as [|e| |]; try (rewrite (Hfeed (Err g)) in H0; [discriminate|intros ? ?; discriminate|exact Hrun]).
    destruct Hrun as [Hrun|Hrun]; (erewrite Hfeed in H0; [|clear Hrun|exact Hrun]; [discriminate|discriminate]).
  - destruct Hsafe as (-> & _). exists u, b', (ts ++ [TEOF l']). split; [exact Eu|]. split; [exact Hlu|].
    apply trips_more. apply Hst. reflexivity.
  - destruct Hsafe.
Qed.
Lemma limit_panics : forall name m fs p, lex_fragments name m fs = Panic p -> lex_fragments name 0 fs = Panic p.
Proof.
  intros name m fs p E.
  unfold lex_fragments in *; destruct (feed (lx_new name m) fs) as [lx r] eqn:Ef;
    assert (Hne : match r with Err _ => False | _ => True end) by (destruct r; try exact I; discriminate);
    apply unlimit_feed_any in Ef; [|exact Hne];
    change (unlimit (lx_new name m)) with (lx_new name 0) in Ef; rewrite Ef;
    destruct r as [rs1| | |]; try exact E; cbn [bind] in *;
    destruct (lx_flush lx) as [lx2 r2] eqn:E2; rewrite (unlimit_flush _ _ _ E2); exact E.
Qed.
Lemma frags_trips : forall name m fs p, lex_fragments name m fs = Panic p ->
  p = PIndex /\ exists u v ts, frags_text fs = u ++ v /\ lexes (loc_new name) u ts /\ trips ts.
Proof. intros name m fs p H. apply frags_trips0, (limit_panics name m), H. Qed.
Lemma frags_exact : forall name fs ts, lexes (loc_new name) (frags_text fs) ts ->
  forall p, lex_fragments name 0 fs = Panic p <-> p = PIndex /\ trips ts.
Proof.
  intros name fs ts Hl p. pose proof (lexes_vt _ _ _ Hl) as Hvt.
  apply lexes_steps in Hl as (ts1 & l' & b' & ts2 & Hs & Hstp & Ef & ->).
  assert (Hend : forall t n, read_next l' b' false <> Ok (Some (t, n))) by (intros t n; congruence).
  pose proof (feed_run fs (lx_new name 0) ts1 l' b' (good_new _ _) eq_refl Hs Hend) as Hrun.
  cbn [lx_new lx_tokens] in Hrun. rewrite Hstp in Hrun.
  assert (E : exists x, lex_fragments name 0 fs = x /\ (forall q, x = Panic q <-> snd (append_loop [] (ts1 ++ ts2)) = Panic q)).
  { rewrite append_loop_app. unfold lex_fragments.
    destruct (append_loop [] ts1) as [c [rs|g|q|]] eqn:Ea.
    - rewrite Hrun. cbn [bind]. unfold lx_flush. cbn [lx_tk]. rewrite flushed_tail by exact Hstp.
      rewrite Ef. cbn [lx_append lx_tokens].
      destruct (append_loop c ts2) as [c2 [rs2|g|q|]]; cbn [snd first_rule bind]; eexists; (split; [reflexivity|]);
        intros; split; congruence.
    - destruct (feed (lx_new name 0) fs) as [lx r]. cbn [snd] in Hrun. subst r. cbn [bind first_rule snd]. eexists. split; [reflexivity|].
      intros; split; congruence.
    - destruct (feed (lx_new name 0) fs) as [lx r]. cbn [snd] in Hrun. subst r. cbn [bind first_rule snd]. eexists. split; [reflexivity|].
      intros; split; congruence.
    - destruct (feed (lx_new name 0) fs) as [lx r]. cbn [snd] in Hrun. subst r. cbn [bind first_rule snd]. eexists. split; [reflexivity|].
      intros; split; congruence. }
  destruct E as (x & -> & Hx). rewrite Hx. split.
  - intros H. pose proof (append_total (ts1 ++ ts2) [] Hvt eq_refl) as Hsafe. cbn [app] in Hsafe. rewrite H in Hsafe.
    destruct Hsafe as (-> & _). split; [reflexivity|]. apply append_exact; eauto.
  - intros (-> & H). apply append_exact in H as (q & Hq); [|exact Hvt].
    pose proof (append_total (ts1 ++ ts2) [] Hvt eq_refl) as Hsafe. cbn [app] in Hsafe. rewrite Hq in Hsafe.
    destruct Hsafe as (-> & _). exact Hq.
Qed.
Lemma fault_exact : forall name fs ts l v e, cuts (loc_new name) (frags_text fs) ts l v -> fault l v e -> unfinished v e ->
  forall p, lex_fragments name 0 fs = Panic p <-> p = PIndex /\ trips ts.
Proof.
  intros name fs ts l v e Hc Hf Hu p. pose proof (fault_nonempty _ _ _ Hf) as Hn. apply cuts_steps in Hc; [|exact Hn].
  destruct (fault_read _ _ _ Hf) as [(K & _)|(_ & Hstp & Hr)]; [contradiction|].
  assert (Hvt : vt ts) by (apply valid_vt; eapply steps_valid; exact Hc).
  assert (Hend : forall t n, read_next l v false <> Ok (Some (t, n))) by (intros t n; unfold stuck in Hstp; congruence).
  pose proof (feed_run fs (lx_new name 0) ts l v (good_new _ _) eq_refl Hc Hend) as Hrun.
  cbn [lx_new lx_tokens] in Hrun. unfold stuck in Hstp. rewrite Hstp in Hrun.
  assert (E : lex_fragments name 0 fs = Panic p <-> snd (append_loop [] ts) = Panic p).
  { unfold lex_fragments. destruct (append_loop [] ts) as [c [rs|g|q|]] eqn:Ea.
    - rewrite Hrun. cbn [bind]. unfold lx_flush. cbn [lx_tk]. rewrite flushed_tail by exact Hstp.
      unfold flushed. destruct v as [|ch r]; [congruence|]. rewrite Hr. cbn [lx_append bind snd]. split; intros K; discriminate K.
    - destruct (feed (lx_new name 0) fs) as [lx r]. cbn [snd] in Hrun. subst r. cbn [bind snd]. split; congruence.
    - destruct (feed (lx_new name 0) fs) as [lx r]. cbn [snd] in Hrun. subst r. cbn [bind snd]. split; congruence.
    - destruct (feed (lx_new name 0) fs) as [lx r]. cbn [snd] in Hrun. subst r. cbn [bind snd]. split; congruence. }
  rewrite E. pose proof (append_total ts [] Hvt eq_refl) as Hsafe. cbn [app] in Hsafe. split.
  - intros H. rewrite H in Hsafe. destruct Hsafe as (-> & _). split; [reflexivity|]. apply append_exact; eauto.
  - intros (-> & H). apply append_exact in H as (q & Hq); [|exact Hvt]. rewrite Hq in Hsafe.
    destruct Hsafe as (-> & _). exact Hq.
Qed.
Lemma text_cases : forall name s, (exists ts, lexes (loc_new name) s ts) \/
  exists ts l v e, cuts (loc_new name) s ts l v /\ fault l v e.
Proof.
  intros name s. destruct (tl_steps (loc_new name) s) as (ts & l' & b' & Hs & Hcase).
  pose proof (steps_cuts _ _ _ _ _ Hs) as Hc. destruct Hcase as [(Hstp & _)|(e & He & _)].
  - destruct (flushed l' b') as [ts2|] eqn:Ef.
    + left. exists (ts ++ ts2). apply lexes_steps. exists ts, l', b', ts2. auto.
    + right. unfold flushed in Ef. destruct b' as [|ch r]; [discriminate|].
      pose proof (read_next_no_panic l' (ch :: r) true) as Hp.
      destruct (read_next l' (ch :: r) true) as [[[t n]|]|e|p|] eqn:E; try discriminate; try (destruct Hp; fail).
      * exfalso. exact (flush_decides _ _ _ E).
      * exists ts, l', (ch :: r), e. split; [exact Hc|]. apply (read_next_fault l' (ch :: r) true); auto.
  - right. exists ts, l', b', e. split; [exact Hc|]. apply (read_next_fault l' b' false); [discriminate|exact He].
Qed.
Lemma text_exact : forall name s p, parse_str name s = Panic p <-> p = PIndex /\
  ((exists ts, lexes (loc_new name) s ts /\ trips ts) \/
   (exists ts l v e, cuts (loc_new name) s ts l v /\ fault l v e /\ unfinished v e /\ trips ts)).
Proof.
  intros name s p. pose proof (parse_str_fragments name s) as Ep.
  assert (Et : frags_text [FStr s] = s) by (cbn; apply app_nil_r).
  split.
  - intros H. destruct (text_cases name s) as [(ts & Hl)|(ts & l & v & e & Hc & Hf)].
    + rewrite Ep in H. rewrite <- Et in Hl. apply (frags_exact name [FStr s] ts Hl) in H. rewrite Et in Hl.
      split; [tauto|]. left. exists ts. tauto.
    + destruct (fault_read _ _ _ Hf) as [(Hu & _)|(Hu & _)].
      * rewrite (fault_at_once _ _ _ _ _ _ Hc Hf Hu) in H. discriminate.
      * rewrite Ep in H. rewrite <- Et in Hc. apply (fault_exact name [FStr s] ts l v e Hc Hf Hu) in H. rewrite Et in Hc.
        split; [tauto|]. right. exists ts, l, v, e. tauto.
  - rewrite Ep. intros (Hp & [(ts & Hl & Ht)|(ts & l & v & e & Hc & Hf & Hu & Ht)]).
    + rewrite <- Et in Hl. apply (frags_exact name [FStr s] ts Hl). auto.
    + rewrite <- Et in Hc. apply (fault_exact name [FStr s] ts l v e Hc Hf Hu). auto.
Qed.
