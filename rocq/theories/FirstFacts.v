(** Which mistake of a text is noticed first. *)
From Coq Require Import String List NArith Arith Bool Lia.
From Verif Require Import Base Tokenizer Ast Lex SpecText TextFacts SpecTok TokFacts SpecLex TokRun LexRun SpecGram GramFacts SpecFault FaultFacts StopFacts SpecLimit LimitFacts StickFacts SpecFirst.
Import ListNotations.
Open Scope nat_scope.

Definition runs (name s : str) (ts : list token) (l : location) (b : str) : Prop :=
  steps (loc_new name) s ts l b /\ (forall t n, read_next l b false <> Ok (Some (t, n))).
Lemma runs_any : forall name s, exists ts l b, runs name s ts l b.
Proof.
  intros name s. destruct (tl_steps (loc_new name) s) as (ts & l & b & Hs & Hc). exists ts, l, b. split; [exact Hs|].
  intros t n. destruct Hc as [(K & _)|(e & K & _)]; rewrite K; discriminate.
Qed.
Lemma runs_fun : forall name s ts l b ts' l' b', runs name s ts l b -> runs name s ts' l' b' -> ts = ts' /\ l = l' /\ b = b'.
Proof. intros name s ts l b ts' l' b' (H1 & H2) (H3 & H4). exact (steps_det _ _ _ _ _ H1 H2 _ _ _ H3 H4). Qed.

Lemma broken_runs : forall name s ts l b e, runs name s ts l b -> (broken name s e <-> read_next l b false = Err e).
Proof.
  intros name s ts l b e Hr. split.
  - intros (ts' & l' & v & Hc & Hf & Hu). apply cuts_steps in Hc; [|exact (fault_nonempty _ _ _ Hf)].
    destruct (fault_read _ _ _ Hf) as [(_ & K)|(K & _)]; [|contradiction].
    assert (Hr' : runs name s ts' l' v) by (split; [exact Hc|intros t n; rewrite K; discriminate]).
    destruct (runs_fun _ _ _ _ _ _ _ _ Hr Hr') as (_ & -> & ->). exact K.
  - intros K. exists ts, l, b. split; [apply steps_cuts; exact (proj1 Hr)|].
    assert (Hf : fault l b e) by (apply (read_next_fault _ _ false); [discriminate|exact K]). split; [exact Hf|].
    intros Hu. destruct (fault_read _ _ _ Hf) as [(Hn & _)|(_ & Hst & _)]; [contradiction|]. unfold stuck in Hst. congruence.
Qed.
Lemma broken_dec : forall name s, (exists e, broken name s e) \/ (forall e, ~ broken name s e).
Proof.
  intros name s. destruct (runs_any name s) as (ts & l & b & Hr).
  destruct (read_next l b false) as [[[t n]|]|e|p|] eqn:E.
  2: right; intros e H; apply (broken_runs _ _ _ _ _ _ Hr) in H; congruence.
  2: left; exists e; apply (broken_runs _ _ _ _ _ _ Hr); exact E.
  all: right; intros e H; apply (broken_runs _ _ _ _ _ _ Hr) in H; congruence.
Qed.
Lemma broken_fun : forall name s e e', broken name s e -> broken name s e' -> e = e'.
Proof.
  intros name s e e' H H'. destruct (runs_any name s) as (ts & l & b & Hr).
  apply (broken_runs _ _ _ _ _ _ Hr) in H, H'. congruence.
Qed.
Lemma broken_app : forall name s e x, broken name s e -> broken name (s ++ x) e.
Proof.
  intros name s e x H. destruct (runs_any name s) as (ts & l & b & Hr). pose proof (proj1 (broken_runs _ _ _ _ _ _ Hr) H) as K.
  assert (Hr' : runs name (s ++ x) ts l (b ++ x)).
  { split; [apply steps_app; exact (proj1 Hr)|]. intros t n. rewrite read_next_stable; congruence. }
  apply (broken_runs _ _ _ _ _ _ Hr'). rewrite read_next_stable; congruence.
Qed.

(** ** The tokens of a beginning *)
Lemma steps_lexes : forall a l s t ts l' b, steps l s (a ++ t :: ts) l' b -> terminator t ->
  exists l2, lexes l (flat_map tok_text (a ++ [t])) (a ++ [t; TEOF l2]) /\ exists v, s = flat_map tok_text (a ++ [t]) ++ v.
Proof.
  induction a as [|t1 a IH]; intros l s t ts l' b H Ht.
  - cbn [app] in *. inversion H as [|l0 b0 t0 n ts0 l1 b1 Hn Hs E1 E2 E3]. subst. destruct (read_next_split _ _ _ _ _ Hn) as (F1 & F2 & _).
    apply read_next_sound in Hn as (rest & Eb & En & _ & Hv & Hl & _). exists (loc_push_str l (tok_text t)). cbn [flat_map]. split; [|exists rest; rewrite app_nil_r; exact Eb].
    apply (lexes_tok _ (loc_push_str l (tok_text t))); [exact Hv|exact Hl|exact I|apply reaches_push; reflexivity|constructor].
  - cbn [app] in *. inversion H as [|l0 b0 t0 n ts0 l1 b1 Hn Hs E1 E2 E3]. subst. destruct (read_next_split _ _ _ _ _ Hn) as (F1 & F2 & _).
    pose proof Hn as Hn'. apply read_next_sound in Hn' as (rest & Eb & En & _ & Hv & Hl & Hf). specialize (Hf eq_refl).
    destruct (IH _ _ _ _ _ _ Hs Ht) as (l2 & Hlex & v & Ev). exists l2. cbn [flat_map].
    assert (Er : rest = flat_map tok_text (a ++ [t]) ++ v).
    { rewrite <- Ev. rewrite F2 in Eb. apply app_inv_head in Eb. symmetry. exact Eb. }
    split; [|exists v; rewrite <- app_assoc, <- Er; exact Eb].
    rewrite F1 in Hlex. eapply lexes_tok; [exact Hv|exact Hl| |apply reaches_push; reflexivity|exact Hlex].
    rewrite Er in Hf. destruct (flat_map tok_text (a ++ [t])) as [|c r] eqn:Ef; [exact I|exact Hf].
Qed.

(** ** The rules of a beginning *)
Lemma append_ended : forall ts cur t c rs, terminator t -> append_loop cur (ts ++ [t]) = (c, Ok rs) -> c = [].
Proof.
  induction ts as [|x ts IH]; intros cur t c rs Ht H; cbn [app append_loop] in H.
  - apply is_terminator_spec in Ht. rewrite Ht in H. destruct (build_syntax_rule (cur ++ [t])); congruence.
  - destruct (is_terminator x); [|exact (IH _ _ _ _ Ht H)].
    destruct (build_syntax_rule (cur ++ [x])) as [o| | |]; try discriminate.
    destruct (append_loop [] (ts ++ [t])) as [c' [rs'| | |]] eqn:E; try discriminate.
    injection H as <- _. exact (IH _ _ _ _ Ht E).
Qed.
Lemma append_first : forall ts cur, is_ok (snd (append_loop cur ts)) = false ->
  exists a t b, ts = a ++ t :: b /\ terminator t /\ snd (append_loop cur (a ++ [t])) = snd (append_loop cur ts).
Proof.
  induction ts as [|x ts IH]; intros cur H; [discriminate H|]. cbn [append_loop] in *. destruct (is_terminator x) eqn:Ex.
  - destruct (build_syntax_rule (cur ++ [x])) as [o|e|p|] eqn:Eb.
    + assert (Hn : is_ok (snd (append_loop [] ts)) = false) by (destruct (append_loop [] ts) as [c [rs| | |]]; [discriminate H|reflexivity..]).
      destruct (IH [] Hn) as (a & t & b & -> & Ht & E). exists (x :: a), t, b. split; [reflexivity|]. split; [exact Ht|].
      cbn [app append_loop]. rewrite Ex, Eb. destruct (append_loop [] (a ++ [t])) as [c1 [r1| | |]], (append_loop [] (a ++ t :: b)) as [c2 [r2| | |]]; cbn [snd] in *; congruence.
    + exists [], x, ts. apply is_terminator_spec in Ex as Hx. repeat split; [exact Hx|]. cbn [app append_loop]. rewrite Ex, Eb. reflexivity.
    + exists [], x, ts. apply is_terminator_spec in Ex as Hx. repeat split; [exact Hx|]. cbn [app append_loop]. rewrite Ex, Eb. reflexivity.
    + exists [], x, ts. apply is_terminator_spec in Ex as Hx. repeat split; [exact Hx|]. cbn [app append_loop]. rewrite Ex, Eb. reflexivity.
  - destruct (IH _ H) as (a & t & b & -> & Ht & E). exists (x :: a), t, b. split; [reflexivity|]. split; [exact Ht|].
    cbn [app append_loop]. rewrite Ex. exact E.
Qed.
Lemma append_further : forall a b cur, is_ok (snd (append_loop cur a)) = false -> snd (append_loop cur (a ++ b)) = snd (append_loop cur a).
Proof. intros a b cur H. rewrite append_loop_app. destruct (append_loop cur a) as [c [rs| | |]]; [discriminate H|reflexivity..]. Qed.
Lemma append_eof : forall a t l, terminator t -> is_ok (snd (append_loop [] (a ++ [t]))) = true -> is_ok (snd (append_loop [] (a ++ [t; TEOF l]))) = true.
Proof.
  intros a t l Ht H. change [t; TEOF l] with ([t] ++ [TEOF l]). rewrite app_assoc, append_loop_app.
  destruct (append_loop [] (a ++ [t])) as [c [rs| | |]] eqn:E; try discriminate H.
  rewrite (append_ended _ _ _ _ _ Ht E). reflexivity.
Qed.
Lemma parse_str_loop : forall name s ts, lexes (loc_new name) s ts -> parse_str name s = snd (append_loop [] ts).
Proof.
  intros name s ts H. pose proof (parse_str_tokens name s) as K.
  assert (Et : tokens_of name [s] = Ok ts) by (apply tokens_lexes; cbn [concat]; rewrite app_nil_r; exact H).
  rewrite Et in K. destruct (append_loop [] ts) as [c [rs| | |]]; exact K.
Qed.
Lemma lexes_terminator : forall name u ts t l, lexes (loc_new name) u (ts ++ [t; TEOF l]) -> terminator t ->
  exists l', steps (loc_new name) u (ts ++ [t]) l' [].
Proof.
  intros name u ts t l H Ht. destruct (lexes_split _ _ _ _ _ H) as (l1 & s1 & -> & Hl & Hx).
  inversion Hl as [|l0 l2 t0 rest ts0 Hv Hl0 Hf Hr Hlex K1 K2 K3].
  subst. inversion Hlex as [l3 K1 K2 K3|l3 l4 t3 rest3 ts3 Hv3 Hl3 Hf3 Hr3 Hlex3 K1 K2 K3]; [|destruct Hv3].
  subst. rewrite app_nil_r in *.
  assert (He : ends_itself t) by (destruct t; try (destruct Ht; fail); [intros x; exact I|destruct Hv]).
  pose proof (ends_read (tok_loc t) t Hv eq_refl He) as Hn.
  pose proof (text_pos _ Hv) as Hp.
  exists (loc_push_str (tok_loc t) (tok_text t)).
  assert (Hne : tok_text t <> []) by (intros E; rewrite E in Hp; cbn in Hp; lia).
  apply (steps_trans _ _ _ _ _ (Hx _ Hne eq_refl)). econstructor; [exact Hn|]. rewrite firstn_all, skipn_all. constructor.
Qed.

Lemma wrong_runs : forall name s ts l b o, runs name s ts l b ->
  (wrong name s o <-> snd (append_loop [] ts) = o /\ is_ok o = false).
Proof.
  intros name s ts l b o Hr. split.
  - intros (u & v & us & t & l1 & -> & Hlex & Ht & Ho & Hno). split; [|exact Hno].
    rewrite (parse_str_loop _ _ _ Hlex) in Ho.
    destruct (lexes_terminator _ _ _ _ _ Hlex Ht) as (l' & Hs). apply (steps_app _ _ _ _ _) with (x := v) in Hs. cbn [app] in Hs.
    destruct (tl_steps l' v) as (ts2 & l2 & b2 & Hs2 & Hc).
    assert (Hr' : runs name (u ++ v) ((us ++ [t]) ++ ts2) l2 b2).
    { split; [exact (steps_trans _ _ _ _ _ Hs _ _ _ Hs2)|]. intros x n. destruct Hc as [(K & _)|(e & K & _)]; rewrite K; discriminate. }
    destruct (runs_fun _ _ _ _ _ _ _ _ Hr Hr') as (-> & _ & _).
    destruct (is_ok (snd (append_loop [] (us ++ [t])))) eqn:Ek.
    + pose proof (append_eof us t l1 Ht Ek) as K. rewrite Ho in K. congruence.
    + rewrite append_further by exact Ek. rewrite <- Ho. change [t; TEOF l1] with ([t] ++ [TEOF l1]). rewrite app_assoc.
      symmetry. apply append_further. exact Ek.
  - intros (Ho & Hno). assert (Hn : is_ok (snd (append_loop [] ts)) = false) by congruence.
    destruct (append_first _ _ Hn) as (a & t & c & -> & Ht & E). destruct Hr as (Hs & _).
    destruct (steps_lexes _ _ _ _ _ _ _ Hs Ht) as (l2 & Hlex & v & Ev).
    exists (flat_map tok_text (a ++ [t])), v, a, t, l2. split; [exact Ev|]. split; [exact Hlex|]. split; [exact Ht|]. split; [|exact Hno].
    rewrite (parse_str_loop _ _ _ Hlex). change [t; TEOF l2] with ([t] ++ [TEOF l2]). rewrite app_assoc.
    rewrite append_further by congruence. congruence.
Qed.
Lemma wrong_fun : forall name s o o', wrong name s o -> wrong name s o' -> o = o'.
Proof.
  intros name s o o' H H'. destruct (runs_any name s) as (ts & l & b & Hr).
  apply (wrong_runs _ _ _ _ _ _ Hr) in H as (<- & _). apply (wrong_runs _ _ _ _ _ _ Hr) in H' as (<- & _). reflexivity.
Qed.
Lemma wrong_dec : forall name s, (exists o, wrong name s o) \/ (forall o, ~ wrong name s o).
Proof.
  intros name s. destruct (runs_any name s) as (ts & l & b & Hr). destruct (is_ok (snd (append_loop [] ts))) eqn:E.
  - right. intros o H. apply (wrong_runs _ _ _ _ _ _ Hr) in H as (<- & K). congruence.
  - left. exists (snd (append_loop [] ts)). apply (wrong_runs _ _ _ _ _ _ Hr). auto.
Qed.
Lemma wrong_app : forall name s o x, wrong name s o -> wrong name (s ++ x) o.
Proof.
  intros name s o x (u & v & us & t & l & -> & H). exists u, (v ++ x), us, t, l. rewrite app_assoc. split; [reflexivity|exact H].
Qed.

(** ** The calls *)
Lemma frags_app : forall a b, frags_text (a ++ b) = frags_text a ++ frags_text b.
Proof. intros a b. unfold frags_text. apply flat_map_app. Qed.
Lemma feed_right : forall name fs, (forall e, ~ broken name (frags_text fs) e) -> (forall o, ~ wrong name (frags_text fs) o) ->
  exists ts l b c rs, runs name (frags_text fs) ts l b /\ stuck l b /\ append_loop [] ts = (c, Ok rs) /\ feed (lx_new name 0) fs = (Lx (Tk 0 b l) c, Ok rs).
Proof.
  intros name fs Hb Hw. destruct (runs_any name (frags_text fs)) as (ts & l & b & Hr). exists ts, l, b.
  pose proof (feed_run fs (lx_new name 0) ts l b (good_new _ _) eq_refl (proj1 Hr) (proj2 Hr)) as K. cbn [lx_new lx_tokens] in K.
  assert (Hst : stuck l b).
  { unfold stuck. destruct (tl_steps (loc_new name) (frags_text fs)) as (ts' & l' & b' & Hs' & Hc).
    assert (Hr' : runs name (frags_text fs) ts' l' b') by (split; [exact Hs'|]; intros x n; destruct Hc as [(K' & _)|(e & K' & _)]; rewrite K'; discriminate).
    destruct (runs_fun _ _ _ _ _ _ _ _ Hr Hr') as (_ & -> & ->). destruct Hc as [(K' & _)|(e & K' & _)]; [exact K'|].
    destruct (Hb e). apply (broken_runs _ _ _ _ _ _ Hr). exact K'. }
  destruct (append_loop [] ts) as [c o] eqn:E. destruct (is_ok o) eqn:Eo.
  - destruct o as [rs| | |]; try discriminate Eo. exists c, rs. unfold stuck in Hst. rewrite Hst in K. auto.
  - destruct (Hw o). apply (wrong_runs _ _ _ _ _ _ Hr). rewrite E. auto.
Qed.
Lemma feed_wrong : forall name fs o, (forall e, ~ broken name (frags_text fs) e) -> wrong name (frags_text fs) o -> snd (feed (lx_new name 0) fs) = o.
Proof.
  intros name fs o Hb Hw. destruct (runs_any name (frags_text fs)) as (ts & l & b & Hr).
  pose proof (feed_run fs (lx_new name 0) ts l b (good_new _ _) eq_refl (proj1 Hr) (proj2 Hr)) as K. cbn [lx_new lx_tokens] in K.
  destruct (proj1 (wrong_runs _ _ _ _ _ _ Hr) Hw) as (Ho & Hno). destruct (append_loop [] ts) as [c o'] eqn:E. cbn [snd] in Ho. subst o'.
  assert (Hne : forall e, read_next l b false <> Err e) by (intros e He; apply (Hb e); apply (broken_runs _ _ _ _ _ _ Hr); exact He).
  destruct o as [rs| | |]; [discriminate Hno|..]; destruct (read_next l b false) as [x|e0| |] eqn:En; try exact K; destruct (Hne e0 eq_refl).
Qed.
Lemma feed_broken : forall name fs e, broken name (frags_text fs) e ->
  (forall pre post o, fs = pre ++ post -> wrong name (frags_text pre) o -> exists e', broken name (frags_text pre) e') ->
  snd (feed (lx_new name 0) fs) = Err e.
Proof.
  intros name fs. induction fs as [|f fs IH] using rev_ind; intros e Hb Hw.
  - exfalso. destruct Hb as (ts & l & v & Hc & Hf & _). pose proof (fault_nonempty _ _ _ Hf) as Hn. apply cuts_steps in Hc; [|exact Hn].
    apply steps_text in Hc as (Hc & _). cbn in Hc. symmetry in Hc. apply app_eq_nil in Hc as (_ & Hc). contradiction.
  - rewrite StickFacts.feed_app. destruct (broken_dec name (frags_text fs)) as [(e' & He')|Hnb].
    + assert (e' = e) as ->. { apply (broken_fun name (frags_text (fs ++ [f]))); [|exact Hb]. rewrite frags_app. apply broken_app. exact He'. }
      assert (Hi : snd (feed (lx_new name 0) fs) = Err e).
      { apply IH; [exact He'|]. intros pre post o -> Ho. apply (Hw pre (post ++ [f]) o); [rewrite app_assoc; reflexivity|exact Ho]. }
      destruct (feed (lx_new name 0) fs) as [lx [rs| | |]]; cbn [snd] in *; try discriminate. exact Hi.
    + assert (Hnw : forall o, ~ wrong name (frags_text fs) o).
      { intros o Ho. destruct (Hw fs [f] o eq_refl Ho) as (e' & He'). exact (Hnb e' He'). }
      destruct (feed_right name fs Hnb Hnw) as (ts & l & b & c & rs & Hr & Hst & _ & ->).
      cbn [feed]. rewrite call_eq by exact Hst. unfold call_rules. rewrite push_tl by (apply unlimited_capacity; reflexivity).
      cbn [lx_tk tk_loc tk_buf tk_max].
      destruct (runs_any name (frags_text (fs ++ [f]))) as (ts2 & l2 & b2 & Hr2). pose proof (proj1 (broken_runs _ _ _ _ _ _ Hr2) Hb) as He.
      assert (Et : exists l3, tl l (b ++ frag_text f) = (l3, Err e)).
      { destruct (tl_steps l (b ++ frag_text f)) as (ts3 & l3 & b3 & Hs3 & Hc).
        assert (Ef : frags_text (fs ++ [f]) = frags_text fs ++ frag_text f) by (rewrite frags_app; cbn [frags_text flat_map]; rewrite app_nil_r; reflexivity).
        assert (Hr3 : runs name (frags_text (fs ++ [f])) (ts ++ ts3) l3 b3).
        { split; [|intros x n; destruct Hc as [(K' & _)|(e' & K' & _)]; rewrite K'; discriminate].
          rewrite Ef. exact (steps_trans _ _ _ _ _ (steps_app _ _ _ _ _ (proj1 Hr) _) _ _ _ Hs3). }
        destruct (runs_fun _ _ _ _ _ _ _ _ Hr2 Hr3) as (_ & -> & ->). destruct Hc as [(K' & _)|(e' & K' & Et)]; [unfold stuck in K'; congruence|].
        exists l3. rewrite Et. congruence. }
      destruct Et as (l3 & ->). reflexivity.
Qed.
Lemma lex_stops : forall name fs o, snd (feed (lx_new name 0) fs) = o -> is_ok o = false -> lex_fragments name 0 fs = o.
Proof.
  intros name fs o H Hno. unfold lex_fragments. destruct (feed (lx_new name 0) fs) as [lx r]. cbn [snd] in H. subst r.
  destruct o; [discriminate Hno|reflexivity..].
Qed.

Lemma first_broken : forall name fs e, broken name (frags_text fs) e ->
  (forall pre post o, fs = pre ++ post -> wrong name (frags_text pre) o -> exists e', broken name (frags_text pre) e') ->
  lex_fragments name 0 fs = Err e.
Proof. intros name fs e Hb Hw. apply lex_stops; [|reflexivity]. exact (feed_broken _ _ _ Hb Hw). Qed.
Lemma first_wrong : forall name pre post o, wrong name (frags_text pre) o -> (forall e, ~ broken name (frags_text pre) e) ->
  lex_fragments name 0 (pre ++ post) = o.
Proof.
  intros name pre post o Hw Hb. assert (Hno : is_ok o = false) by (destruct Hw as (u & v & ts & t & l & _ & _ & _ & _ & K); exact K).
  apply lex_stops; [|exact Hno]. pose proof (feed_wrong _ _ _ Hb Hw) as K. rewrite StickFacts.feed_app.
  destruct (feed (lx_new name 0) pre) as [lx [rs| | |]]; cbn [snd] in *; subst o; [discriminate Hno|reflexivity..].
Qed.
Lemma first_none : forall name fs, (forall e, ~ broken name (frags_text fs) e) -> lex_fragments name 0 fs = parse_str name (frags_text fs).
Proof.
  intros name fs Hb. rewrite parse_str_fragments.
  assert (Ef : frags_text [FStr (frags_text fs)] = frags_text fs) by (cbn; apply app_nil_r).
  destruct (wrong_dec name (frags_text fs)) as [(o & Ho)|Hnw].
  - rewrite <- (app_nil_r fs) at 1. rewrite (first_wrong _ _ _ _ Ho Hb). symmetry.
    apply (first_wrong name [FStr (frags_text fs)] []); rewrite Ef; assumption.
  - destruct (feed_right name fs Hb Hnw) as (ts & l & b & c & rs & Hr & _ & Ea & E1).
    assert (Hb' : forall e, ~ broken name (frags_text [FStr (frags_text fs)]) e) by (rewrite Ef; exact Hb).
    assert (Hnw' : forall o, ~ wrong name (frags_text [FStr (frags_text fs)]) o) by (rewrite Ef; exact Hnw).
    destruct (feed_right name _ Hb' Hnw') as (ts2 & l2 & b2 & c2 & rs2 & Hr2 & _ & Ea2 & E2).
    rewrite Ef in Hr2. destruct (runs_fun _ _ _ _ _ _ _ _ Hr Hr2) as (<- & <- & <-). rewrite Ea in Ea2. injection Ea2 as <- <-.
    unfold lex_fragments. rewrite E1, E2. reflexivity.
Qed.
Lemma first_succeeds : forall name fs, succeeds name fs <-> (forall e, ~ broken name (frags_text fs) e) /\ (forall o, ~ wrong name (frags_text fs) o).
Proof.
  intros name fs. split.
  - intros (lx & rs & H). split.
    + intros e He. destruct (runs_any name (frags_text fs)) as (ts & l & b & Hr). pose proof (proj1 (broken_runs _ _ _ _ _ _ Hr) He) as K.
      pose proof (feed_run fs (lx_new name 0) ts l b (good_new _ _) eq_refl (proj1 Hr) (proj2 Hr)) as F. cbn [lx_new lx_tokens] in F.
      rewrite K, H in F. destruct (append_loop [] ts) as [c [rs'| | |]]; cbn [snd] in F; [discriminate F|destruct F as [F|F]; discriminate F..].
    + intros o Ho. destruct (broken_dec name (frags_text fs)) as [(e & He)|Hb].
      * destruct (runs_any name (frags_text fs)) as (ts & l & b & Hr). pose proof (proj1 (broken_runs _ _ _ _ _ _ Hr) He) as K.
        pose proof (feed_run fs (lx_new name 0) ts l b (good_new _ _) eq_refl (proj1 Hr) (proj2 Hr)) as F. cbn [lx_new lx_tokens] in F.
        rewrite K, H in F. destruct (append_loop [] ts) as [c [rs'| | |]]; cbn [snd] in F; [discriminate F|destruct F as [F|F]; discriminate F..].
      * pose proof (feed_wrong _ _ _ Hb Ho) as K. rewrite H in K. cbn [snd] in K. destruct Ho as (u & v & ts & t & l & _ & _ & _ & _ & Hno). subst o. discriminate Hno.
  - intros (Hb & Hw). destruct (feed_right _ _ Hb Hw) as (ts & l & b & c & rs & _ & _ & _ & E). eexists _, _. exact E.
Qed.

Lemma broken_lexical : forall name s e, broken name s e -> lexical name s e.
Proof. intros name s e (ts & l & v & Hc & Hf & _). exists ts, l, v. auto. Qed.
Lemma broken_whole : forall name s e, broken name s e -> parse_str name s = Err e.
Proof. intros name s e (ts & l & v & Hc & Hf & Hu). exact (fault_at_once _ _ _ _ _ _ Hc Hf Hu). Qed.
Lemma wrong_chars : forall name s o, wrong name s o -> lex_fragments name 0 (map FChar s) = o.
Proof.
  intros name s o (u & v & ts & t & l & -> & Hlex & Ht & Ho & Hno).
  assert (Eu : frags_text (map FChar u) = u) by (clear; induction u as [|c u IH]; [reflexivity|]; cbn [map frags_text flat_map frag_text app]; f_equal; exact IH).
  rewrite map_app. apply first_wrong; rewrite Eu.
  - exists u, [], ts, t, l. rewrite app_nil_r. auto.
  - intros e He. exact (lexical_not_ok _ _ _ (broken_lexical _ _ _ He) _ Hlex).
Qed.
Lemma wrong_broken : forall name s o e, wrong name s o -> broken name s e -> o <> Err e.
Proof.
  intros name s o e (u & v & ts & t & l & -> & Hlex & Ht & Ho & Hno) (ts2 & l2 & v2 & _ & Hf & _) ->.
  rewrite parse_str_fragments in Ho. apply errors_explained in Ho as [Ho|[Ho|Ho]].
  - cbn in Ho. rewrite app_nil_r in Ho. exact (lexical_not_ok _ _ _ Ho _ Hlex).
  - destruct Ho as (ts3 & l3 & v3 & a & t3 & b1 & b2 & _ & _ & _ & Hm & _). inversion Hf; subst; cbn in Hm; inversion Hm.
  - destruct Ho as (ts3 & l3 & v3 & h & d & _ & _ & K & _). lia.
Qed.
Lemma independent_iff : forall name s, (forall fs, frags_text fs = s -> lex_fragments name 0 fs = parse_str name s) <->
  ~ ((exists e, broken name s e) /\ (exists o, wrong name s o)).
Proof.
  intros name s. split.
  - intros H ((e & He) & (o & Ho)). apply (wrong_broken _ _ _ _ Ho He). rewrite <- (wrong_chars _ _ _ Ho), <- (broken_whole _ _ _ He). apply H.
    clear. induction s as [|c s IH]; [reflexivity|]. cbn [map frags_text flat_map frag_text app]. f_equal. exact IH.
  - intros H fs <-. destruct (broken_dec name (frags_text fs)) as [(e & He)|Hb]; [|exact (first_none _ _ Hb)].
    rewrite (broken_whole _ _ _ He). apply first_broken; [exact He|]. intros pre post o -> Ho. exfalso. apply H. split; [eauto|].
    exists o. rewrite frags_app. apply wrong_app. exact Ho.
Qed.
