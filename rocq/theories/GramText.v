(** The grammar at the level of texts. *)
From Coq Require Import String List NArith Arith Bool Lia.
From Verif Require Import Base Ident Tokenizer Ast Lex SpecText TextFacts SpecTok TokFacts TokRun
  SpecLex LexRun SpecGram GramFacts.
Import ListNotations.
Open Scope nat_scope.

Lemma valid_vt : forall ts, Forall valid_tok ts -> vt ts.
Proof. intros ts H. unfold vt. induction H as [|t ts Ht _ IH]; [constructor|]. cbn. destruct (word_or_gapb t); auto. Qed.
Lemma lexes_vt : forall l s ts, lexes l s ts -> vt ts.
Proof.
  intros l s ts H. apply lexes_shape in H as (ts0 & l' & -> & HF). apply vt_app. split; [apply valid_vt; exact HF|constructor].
Qed.
Lemma append_to_eof : forall ts l cur c rs, append_loop cur (ts ++ [TEOF l]) = (c, Ok rs) -> c = [].
Proof.
  intros ts l cur c rs H. rewrite append_loop_app in H.
  destruct (append_loop cur ts) as [c0 [rs0| | |]]; try discriminate. cbn [append_loop is_terminator] in H.
  destruct (build_syntax_rule (c0 ++ [TEOF l])) as [o| | |]; try discriminate. injection H as <- _. reflexivity.
Qed.
Lemma append_lexed : forall l s ts c rs, lexes l s ts -> append_loop [] ts = (c, Ok rs) -> c = [].
Proof. intros l s ts c rs H E. apply lexes_shape in H as (ts0 & l' & -> & _). eapply append_to_eof; exact E. Qed.

Lemma parse_sound : forall name s rs, parse_str name s = Ok rs ->
  exists ts, lexes (loc_new name) s ts /\ g_syntax ts rs.
Proof.
  intros name s rs H. apply parse_str_ok in H as (ts & c & Hl & Ha).
  assert (c = []) as -> by (eapply append_lexed; eassumption).
  apply append_sound in Ha as (w & E & Hg); [|cbn; eapply lexes_vt; exact Hl].
  cbn in E. rewrite app_nil_r in E. subst w. eauto.
Qed.
Lemma eq_but_empty_map : forall a b,
  map (reloc_rule nowhere same) a = map (reloc_rule nowhere same) b <-> Forall2 eq_but_empty a b.
Proof.
  induction a as [|x a IH]; intros [|y b]; cbn [map]; split; intros H; try discriminate; try constructor;
    try (inversion H; fail).
  - apply (f_equal (@hd_error _)) in H. injection H. intros E1 E2 E3. unfold eq_but_empty, reloc_rule. congruence.
  - apply (f_equal (@List.tl _)) in H. apply IH. exact H.
  - inversion H; subst. f_equal; [assumption|apply IH; assumption].
Qed.
Lemma parse_complete : forall name s ts rs, lexes (loc_new name) s ts -> g_syntax ts rs ->
  exists rs', parse_str name s = Ok rs' /\ Forall2 eq_but_empty rs' rs.
Proof.
  intros name s ts rs Hl Hg. destruct (append_complete ts rs Hg (lexes_vt _ _ _ Hl)) as (rs' & Ha & E).
  exists rs'. split; [|apply eq_but_empty_map; exact E]. apply parse_str_ok. eauto.
Qed.
Lemma unambiguous : forall ts rs1 rs2, vt ts -> g_syntax ts rs1 -> g_syntax ts rs2 -> Forall2 eq_but_empty rs1 rs2.
Proof.
  intros ts rs1 rs2 Hv H1 H2. apply append_complete in H1 as (a & Ea & E1); [|exact Hv].
  apply append_complete in H2 as (b & Eb & E2); [|exact Hv]. rewrite Ea in Eb. injection Eb as <-.
  apply eq_but_empty_map. congruence.
Qed.

(** ** Panics *)
Lemma steps_lexes : forall l b ts l' b', steps l b ts l' b' ->
  exists u, b = u ++ b' /\ lexes l u (ts ++ [TEOF l']).
Proof.
  intros l b ts l' b' H. induction H as [l b|l b t n ts l' b' Hrn Hs (u & Eu & IH)].
  - exists []. split; [reflexivity|constructor].
  - destruct (read_next_split _ _ _ _ _ Hrn) as (Hf & Hb & _).
    apply read_next_sound in Hrn as (rest & Hb2 & _ & _ & Hv & Hl & Hfo).
    rewrite Hb in Hb2. apply app_inv_head in Hb2. subst rest. rewrite Eu in Hb, Hfo.
    exists (tok_text t ++ u). split; [rewrite <- app_assoc; exact Hb|].
    cbn [app]. econstructor; [exact Hv|exact Hl| |apply push_str_reaches|].
    + specialize (Hfo eq_refl). destruct u; [exact I|exact Hfo].
    + rewrite <- Hf. exact IH.
Qed.

Lemma frags_panic0 : forall name fs, match lex_fragments name 0 fs with
  | Ok _ | Err _ => True
  | Panic p => p = PIndex /\ exists u v ts, frags_text fs = u ++ v /\ lexes (loc_new name) u ts /\ count_before_close ts
  | OutOfFuel => False
  end.
Proof.
  intros name fs. set (s := frags_text fs).
  destruct (tl_steps (loc_new name) s) as (ts & l' & b' & Hs & Hcase).
  assert (Hend : forall t n, read_next l' b' false <> Ok (Some (t, n))).
  { intros t n. destruct Hcase as [(H & _)|(e & H & _)]; rewrite H; congruence. }
  pose proof (feed_run fs (lx_new name 0) ts l' b' (good_new _ _) eq_refl Hs Hend) as Hrun.
  cbn [lx_new lx_tokens] in Hrun.
  destruct (steps_lexes _ _ _ _ _ Hs) as (u & Eu & Hlu).
  assert (Hvt : vt ([] ++ ts)) by (cbn; apply valid_vt; eapply steps_valid; exact Hs).
  pose proof (append_total ts [] Hvt eq_refl) as Hsafe. cbn [app] in Hsafe.
  assert (Hfeed : forall (x : res (list rule)), (forall rs, x <> Ok rs) -> snd (feed (lx_new name 0) fs) = x ->
            lex_fragments name 0 fs = x).
  { intros x Hx E. unfold lex_fragments. destruct (feed (lx_new name 0) fs) as [lx r]. cbn [snd] in E. subst r.
    destruct x; try reflexivity. exfalso. eapply Hx. reflexivity. }
  destruct (append_loop [] ts) as [c [rs|g|p|]] eqn:Ea; cbn [snd safe_but_count] in Hsafe.
  - destruct Hcase as [(Hst & _)|(e & He & _)].
    2:{ rewrite He in Hrun. rewrite (Hfeed (Err e)); [exact I|intros ? ?; discriminate|exact Hrun]. }
    rewrite Hst in Hrun. unfold lex_fragments. fold s. rewrite Hrun. cbn [bind].
    unfold lx_flush. cbn [lx_tk]. rewrite flushed_tail by exact Hst.
    destruct (flushed l' b') as [ts2|] eqn:Ef.
    + cbn [lx_append lx_tokens].
      assert (Hl : lexes (loc_new name) s (ts ++ ts2)) by (apply lexes_steps; exists ts, l', b', ts2; auto).
      pose proof (append_total (ts ++ ts2) [] (lexes_vt _ _ _ Hl) eq_refl) as Hs2. cbn [app] in Hs2.
      rewrite append_loop_app, Ea in Hs2.
      destruct (append_loop c ts2) as [c2 [rs2|g|p|]]; cbn [snd safe_but_count first_rule bind] in *; auto.
      destruct Hs2 as (-> & Hc). split; [reflexivity|]. exists s, [], (ts ++ ts2). rewrite app_nil_r. auto.
    + cbn [lx_append]. unfold flushed in Ef. destruct b' as [|ch r]; [discriminate|].
      pose proof (read_next_no_panic l' (ch :: r) true) as Hp.
      destruct (read_next l' (ch :: r) true) as [[[t n]|]|e|p|] eqn:E; try exact I; try (destruct Hp; fail);
        try discriminate.
      exact (flush_decides _ _ _ E).
  - destruct (read_next l' b' false) as [|e| |]; try (rewrite (Hfeed (Err g)); [exact I|intros ? ?; discriminate|exact Hrun]).
    destruct Hrun as [Hrun|Hrun]; (erewrite Hfeed; [|clear Hrun|exact Hrun]; [exact I|discriminate]).
  - destruct Hsafe as (-> & Hc).
    assert (Hgoal : PIndex = PIndex /\ exists u v ts, s = u ++ v /\ lexes (loc_new name) u ts /\ count_before_close ts).
    { split; [reflexivity|]. exists u, b', (ts ++ [TEOF l']). split; [exact Eu|]. split; [exact Hlu|].
      apply (count_more []). exact Hc. }
    destruct (read_next l' b' false) as [|e| |]; try (rewrite (Hfeed (Panic PIndex)); [exact Hgoal|intros ? ?; discriminate|exact Hrun]).
    destruct Hrun as [Hrun|Hrun]; (erewrite Hfeed; [|clear Hrun|exact Hrun]; [first [exact Hgoal|exact I]|discriminate]).
  - destruct Hsafe.
Qed.

Lemma unlimit_feed_any : forall fs lx lx' r, feed lx fs = (lx', r) ->
  (match r with Err _ => False | _ => True end) -> feed (unlimit lx) fs = (unlimit lx', r).
Proof.
  induction fs as [|f fs IH]; intros lx lx' r H Hr; cbn [feed] in *.
  - injection H as <- <-. reflexivity.
  - assert (Hcap : over_capacity (lx_tk lx) (length (frag_text f)) = None).
    { destruct (over_capacity (lx_tk lx) (length (frag_text f))) as [e|] eqn:Eo; [exfalso|reflexivity].
      destruct f as [c|s]; cbn [call frag_text] in *.
      - unfold lx_push, tk_push, tk_push_str in H. rewrite Eo in H. cbn in H. injection H as <- <-. exact Hr.
      - unfold lx_push_str, tk_push_str in H. rewrite Eo in H. cbn in H. injection H as <- <-. exact Hr. }
    destruct (call lx f) as [lx1 r1] eqn:E. rewrite (unlimit_call _ _ _ _ Hcap E).
    destruct r1 as [rs1| | |]; try (injection H as <- <-; reflexivity).
    destruct (feed lx1 fs) as [lx2 r2] eqn:E2.
    destruct r2 as [rs2|e2| |]; try (injection H as <- <-; rewrite (IH _ _ _ E2) by exact I; reflexivity).
    injection H as <- <-. destruct Hr.
Qed.
Lemma frags_panic : forall name m fs, match lex_fragments name m fs with
  | Ok _ | Err _ => True
  | Panic p => p = PIndex /\ exists u v ts, frags_text fs = u ++ v /\ lexes (loc_new name) u ts /\ count_before_close ts
  | OutOfFuel => False
  end.
Proof.
  intros name m fs. pose proof (frags_panic0 name fs) as H0.
  destruct (lex_fragments name m fs) as [rs|e|p|] eqn:E; try exact I.
  all: replace (lex_fragments name 0 fs) with (lex_fragments name m fs) in H0; [rewrite E in H0; exact H0|].
  all: unfold lex_fragments in *; destruct (feed (lx_new name m) fs) as [lx r] eqn:Ef;
    assert (Hne : match r with Err _ => False | _ => True end) by (destruct r; try exact I; discriminate);
    apply unlimit_feed_any in Ef; [|exact Hne];
    change (unlimit (lx_new name m)) with (lx_new name 0) in Ef; rewrite Ef;
    destruct r as [rs1| | |]; try reflexivity; cbn [bind] in *;
    destruct (lx_flush lx) as [lx2 r2] eqn:E2; rewrite (unlimit_flush _ _ _ E2); reflexivity.
Qed.

Lemma text_unambiguous : forall name s ts ts' rs rs',
  lexes (loc_new name) s ts -> lexes (loc_new name) s ts' ->
  g_syntax ts rs -> g_syntax ts' rs' -> Forall2 eq_but_empty rs rs'.
Proof.
  intros name s ts ts' rs rs' Hl Hl' H H'. rewrite (lexes_unique _ _ _ _ Hl' Hl) in H'.
  eapply unambiguous; [eapply lexes_vt; exact Hl|exact H|exact H'].
Qed.
