(** When a limited lexer rejects what an unlimited one accepts. *)
From Coq Require Import String List NArith Arith Bool Lia.
From Verif Require Import Base Tokenizer Ast Lex SpecText TextFacts SpecTok TokFacts SpecLex TokRun LexRun SpecGram SpecFault FaultFacts StopFacts StickFacts SpecLimit.
Import ListNotations.
Open Scope nat_scope.

(** The tokenizer gives out exactly the certain tokens. *)
Lemma certain_follows : forall t rest, certain t rest -> follows t (hd_error rest).
Proof. intros t [|c r] H; [exact I|exact H]. Qed.
Lemma read_certain : forall l b t n, read_next l b false = Ok (Some (t, n)) ->
  exists rest, b = tok_text t ++ rest /\ n = length (tok_text t) /\ valid_tok t /\ tok_loc t = l /\ certain t rest.
Proof.
  intros l b t n H. pose proof (read_next_sound _ _ _ _ _ H) as (rest & Hb & Hn & _ & Hv & Hl & Hf). exists rest. repeat (split; [assumption|]).
  destruct rest as [|c r]; [|exact (Hf eq_refl)]. intros c.
  assert (K : read_next l (b ++ [c]) false = Ok (Some (t, n))) by (rewrite read_next_stable; [exact H|rewrite H; discriminate]).
  apply read_next_sound in K as (rest' & Hb' & _ & _ & _ & _ & Hf'). rewrite Hb, app_nil_r in Hb'. apply app_inv_head in Hb'. subst rest'.
  exact (Hf' eq_refl).
Qed.
Lemma ends_read : forall l t, valid_tok t -> tok_loc t = l -> ends_itself t -> read_next l (tok_text t) false = Ok (Some (t, length (tok_text t))).
Proof.
  intros l t Hv Hl He. destruct (read_next_complete l t [] Hv Hl I) as [K|(_ & K1 & K2)]; [rewrite app_nil_r in K; exact K|exfalso].
  revert K1 K2. destruct t; cbn [tok_loc] in Hl; subst l0; cbn [valid_tok] in Hv; unfold ends_itself in He; cbn [follows] in He; try (cbn; discriminate).
  - destruct (He c_rpar eq_refl).
  - destruct Hv as [->|[->| ->]]; try (cbn; discriminate). destruct (He c_rpar eq_refl eq_refl).
  - destruct Hv as [->| ->]; cbn; discriminate.
  - destruct Hv as [->| ->]; cbn; discriminate.
  - destruct Hv as [->| ->]; cbn; discriminate.
  - destruct Hv as [->| ->]; cbn; discriminate.
  - destruct Hv as [->| ->]; cbn; discriminate.
  - destruct (He c_star) as (K & _). destruct (K eq_refl).
  - destruct (He 97%N) as (K & _). destruct K. left. lia.
  - destruct Hv as (Hq & Hs & _). cbn [tok_text]. destruct (s ++ [q]) as [|x y] eqn:Es; [destruct s; discriminate Es|].
    assert (E : forall fl, read_next l (q :: x :: y) fl = terminal_string l (q :: x :: y) fl) by (intros []; destruct Hq as [->| ->]; reflexivity).
    rewrite !E. unfold terminal_string. destruct (scan_to q is_terminal (x :: y)) as [| |[|]]; discriminate.
  - destruct (He 48%N). unfold digit. lia.
  - cbn [tok_text app]. destruct (s ++ _) as [|x y] eqn:Es; [destruct s; discriminate Es|].
    assert (E : forall fl, read_next l (c_lpar :: c_star :: x :: y) fl = if N.eqb x c_rpar then Err (Error_ l MAmbiguousComment) else comment l (c_lpar :: c_star :: x :: y) fl) by (intros []; reflexivity).
    rewrite !E. destruct (N.eqb x c_rpar); [discriminate|]. unfold comment. destruct (comment_loop _ _ _ _) as [| |[|n]]; discriminate.
  - cbn [tok_text app]. destruct (s ++ _) as [|x y] eqn:Es; [destruct s; discriminate Es|].
    assert (E : forall fl, read_next l (c_quest :: x :: y) fl = special_sequence l (c_quest :: x :: y) fl) by (intros []; reflexivity).
    rewrite !E. unfold special_sequence. destruct (scan_to c_quest is_special (x :: y)) as [| |]; discriminate.
  - destruct (He 32%N). unfold gap_char. lia.
Qed.
Lemma certain_read : forall l t rest, valid_tok t -> tok_loc t = l -> certain t rest ->
  read_next l (tok_text t ++ rest) false = Ok (Some (t, length (tok_text t))).
Proof.
  intros l t [|c r] Hv Hl Hc; [rewrite app_nil_r; apply ends_read; assumption|].
  destruct (read_next_complete l t (c :: r) Hv Hl Hc) as [K|(K & _)]; [exact K|discriminate K].
Qed.
Lemma keeps_steps : forall l s ts l' b, keeps l s ts l' b <-> steps l s ts l' b /\ (forall t n, read_next l' b false <> Ok (Some (t, n))).
Proof.
  intros l s ts l' b. split.
  - intros H. induction H as [l b H|l l1 t rest ts l' b Hv Hl Hc Hr _ (IH1 & IH2)].
    + split; [constructor|]. intros t n K. apply read_certain in K as (rest & Hb & _ & Hv & Hl & Hc). exact (H t rest Hb Hv Hl Hc).
    + split; [|exact IH2]. apply reaches_push in Hr. subst l1. econstructor; [apply certain_read; eassumption|].
      rewrite firstn_app, Nat.sub_diag, firstn_O, app_nil_r, firstn_all, skipn_app, Nat.sub_diag, skipn_all. exact IH1.
  - intros (H & E). induction H as [l b|l b0 t n ts l' b K H IH].
    + constructor. intros t rest -> Hv Hl Hc. exact (E _ _ (certain_read l t rest Hv Hl Hc)).
    + apply read_certain in K as (rest & -> & -> & Hv & Hl & Hc). specialize (IH E).
      rewrite firstn_app, Nat.sub_diag, firstn_O, app_nil_r, firstn_all, skipn_app, Nat.sub_diag, skipn_all in IH. cbn in IH.
      econstructor; eauto. apply reaches_push. reflexivity.
Qed.
Lemma keeps_fun : forall l s ts l1 b1 ts' l2 b2, keeps l s ts l1 b1 -> keeps l s ts' l2 b2 -> ts = ts' /\ l1 = l2 /\ b1 = b2.
Proof.
  intros l s ts l1 b1 ts' l2 b2 H K. apply keeps_steps in H as (H1 & H2). apply keeps_steps in K as (K1 & K2). eapply steps_det; eauto.
Qed.

(** Where a lexer stands after calls that succeeded. *)
Lemma feed_good : forall fs lx lx' rs, feed lx fs = (lx', Ok rs) -> good lx -> lmax lx = 0%N ->
  exists ts, steps (loc lx) (buf lx ++ frags_text fs) ts (loc lx') (buf lx') /\ good lx'.
Proof.
  intros fs lx lx' rs H Hg Hm. destruct (tl_steps (loc lx) (buf lx ++ frags_text fs)) as (ts & l' & b' & Hs & Hc).
  assert (He : forall t n, read_next l' b' false <> Ok (Some (t, n))) by (intros t n; destruct Hc as [(K & _)|(e & K & _)]; rewrite K; discriminate).
  pose proof (feed_run fs lx ts l' b' Hg Hm Hs He) as K. destruct (append_loop (lx_tokens lx) ts) as (c & [rs'|e|p|]).
  - destruct Hc as [(Kc & _)|(e & Kc & _)]; rewrite Kc in K.
    + rewrite H in K. injection K as -> _. exists ts. split; [exact Hs|exact Kc].
    + rewrite H in K. discriminate K.
  - destruct Hc as [(Kc & _)|(e' & Kc & _)]; rewrite Kc, H in K; cbn in K; [discriminate K|destruct K as [K|K]; discriminate K].
  - destruct Hc as [(Kc & _)|(e' & Kc & _)]; rewrite Kc, H in K; cbn in K; [discriminate K|destruct K as [K|K]; discriminate K].
  - destruct Hc as [(Kc & _)|(e' & Kc & _)]; rewrite Kc, H in K; cbn in K; [discriminate K|destruct K as [K|K]; discriminate K].
Qed.
Lemma feed_kept : forall name m fs lx rs, feed (lx_new name m) fs = (lx, Ok rs) ->
  good lx /\ exists ts, keeps (loc_new name) (frags_text fs) ts (loc lx) (buf lx).
Proof.
  intros name m fs lx rs H. apply unlimit_feed in H. change (unlimit (lx_new name m)) with (lx_new name 0) in H.
  destruct (feed_good _ _ _ _ H (good_new _ _) eq_refl) as (ts & Hs & Hg). split; [exact Hg|]. exists ts. apply keeps_steps.
  split; [exact Hs|]. intros t n. unfold good, unlimit, loc, buf in Hg. cbn in Hg. unfold stuck in Hg. unfold loc, buf. rewrite Hg. discriminate.
Qed.
Lemma call_max : forall lx f lx' r, call lx f = (lx', r) -> lmax lx' = lmax lx.
Proof.
  intros lx f lx' r H. assert (K : lx' = hstep lx (match f with FChar c => HPush c | FStr s => HPushStr s end)) by (destruct f; unfold call, hstep in *; [destruct (lx_push lx c)|rewrite H]; [injection H as <- _|]; reflexivity).
  rewrite K. apply hstep_state.
Qed.
Lemma call_hstep : forall lx f, fst (call lx f) = hstep lx (match f with FChar c => HPush c | FStr s => HPushStr s end).
Proof. intros lx [c|s]; unfold call, hstep; [destruct (lx_push lx c)|]; reflexivity. Qed.
Lemma feed_max : forall fs lx lx' rs, feed lx fs = (lx', Ok rs) -> lmax lx' = lmax lx /\ (within (lx_tk lx) -> within (lx_tk lx')).
Proof.
  induction fs as [|f fs IH]; intros lx lx' rs H; cbn [feed] in H; [injection H as <- _; auto|].
  destruct (call lx f) as (lx1 & [rs1| | |]) eqn:E; try discriminate. destruct (feed lx1 fs) as (lx2 & [rs2| | |]) eqn:E2; try discriminate.
  injection H as <- _. destruct (IH _ _ _ E2) as (H1 & H2). pose proof (call_hstep lx f) as K. rewrite E in K. cbn in K. subst lx1.
  destruct (hstep_state lx (match f with FChar c => HPush c | FStr s => HPushStr s end)) as (K1 & _ & K2). split; [congruence|auto].
Qed.
Lemma over_iff : forall lx n e, over_capacity (lx_tk lx) n = Some e <->
  (0 < lmax lx)%N /\ (lmax lx < N.of_nat (length (buf lx)) + N.of_nat n)%N /\ e = Error_ (loc lx) (MTooLong (N.of_nat (length (buf lx))) (N.of_nat n) (lmax lx)).
Proof.
  intros lx n e. unfold over_capacity, lmax, buf, loc. destruct (N.ltb_spec 0 (tk_max (lx_tk lx))) as [H|H]; cbn [andb].
  - destruct (N.ltb_spec (tk_max (lx_tk lx)) (N.of_nat (length (tk_buf (lx_tk lx))) + N.of_nat n)) as [K|K].
    + split; [intros [= <-]; auto|intros (_ & _ & ->); reflexivity].
    + split; [discriminate|intros (_ & L & _); lia].
  - split; [discriminate|intros (L & _); lia].
Qed.
Lemma over_call : forall lx f e, over_capacity (lx_tk lx) (length (frag_text f)) = Some e -> snd (call lx f) = Err e.
Proof.
  intros lx [c|s] e H; cbn [call frag_text] in *.
  - unfold lx_push, tk_push, tk_push_str. rewrite H. reflexivity.
  - unfold lx_push_str, tk_push_str. rewrite H. reflexivity.
Qed.
Lemma over_feed : forall pre f post lx lx1 rs e, feed lx pre = (lx1, Ok rs) -> over_capacity (lx_tk lx1) (length (frag_text f)) = Some e ->
  snd (feed lx (pre ++ f :: post)) = Err e.
Proof.
  intros pre f post lx lx1 rs e H K. rewrite feed_app, H. cbn [feed]. pose proof (over_call _ _ _ K) as L.
  destruct (call lx1 f) as (lx2 & r). cbn in L. subst r. reflexivity.
Qed.
Lemma feed_cases : forall fs lx,
  (exists pre f post lx1 rs e, fs = pre ++ f :: post /\ feed lx pre = (lx1, Ok rs) /\ over_capacity (lx_tk lx1) (length (frag_text f)) = Some e) \/
  feed (unlimit lx) fs = (unlimit (fst (feed lx fs)), snd (feed lx fs)).
Proof.
  induction fs as [|f fs IH]; intros lx; [right; reflexivity|].
  destruct (over_capacity (lx_tk lx) (length (frag_text f))) as [e|] eqn:Eo.
  - left. exists [], f, fs, lx, [], e. auto.
  - cbn [feed]. destruct (call lx f) as (lx1 & r) eqn:Ec. pose proof (unlimit_call _ _ _ _ Eo Ec) as Eu. rewrite Eu.
    destruct r as [rs1| | |]; try (right; reflexivity). destruct (IH lx1) as [(pre & g & post & lx2 & rs & e & -> & H & K)|H].
    + left. exists (f :: pre), g, post, lx2, (rs1 ++ rs), e. split; [reflexivity|]. cbn [feed]. rewrite Ec, H. auto.
    + right. rewrite H. destruct (feed lx1 fs) as (lx2 & [rs2| | |]); reflexivity.
Qed.

Section Limit.
Variable name : str.
Variable m : N.
Hypothesis Hm : (0 < m)%N.
Notation overflows := (overflows name m).

Lemma over_overflow : forall pre f lx rs e, feed (lx_new name m) pre = (lx, Ok rs) -> over_capacity (lx_tk lx) (length (frag_text f)) = Some e ->
  exists l h a, overflows pre f l h a /\ e = Error_ l (MTooLong h a m).
Proof.
  intros pre f lx rs e H K. apply over_iff in K as (_ & K & ->). destruct (feed_max _ _ _ _ H) as (E & _). change (lmax (lx_new name m)) with m in E. rewrite E in *.
  destruct (feed_kept _ _ _ _ _ H) as (_ & ts & Hk). do 3 eexists. split; [|reflexivity]. exists ts, (buf lx). auto.
Qed.
Lemma overflow_over : forall pre f lx rs l h a, feed (lx_new name m) pre = (lx, Ok rs) -> overflows pre f l h a ->
  over_capacity (lx_tk lx) (length (frag_text f)) = Some (Error_ l (MTooLong h a m)).
Proof.
  intros pre f lx rs l h a H (ts & b & Hk & -> & -> & Hlt). destruct (feed_kept _ _ _ _ _ H) as (_ & ts' & Hk').
  destruct (keeps_fun _ _ _ _ _ _ _ _ Hk Hk') as (_ & -> & ->). destruct (feed_max _ _ _ _ H) as (E & _). change (lmax (lx_new name m)) with m in E.
  apply over_iff. rewrite E. auto.
Qed.
Lemma none_earlier : forall pre lx rs, feed (lx_new name m) pre = (lx, Ok rs) ->
  forall pre' f' post' l' h' a', pre = pre' ++ f' :: post' -> ~ overflows pre' f' l' h' a'.
Proof.
  intros pre lx rs H pre' f' post' l' h' a' -> K. rewrite feed_app in H. destruct (feed (lx_new name m) pre') as (lx1 & [rs1| | |]) eqn:E1; try discriminate.
  pose proof (overflow_over _ _ _ _ _ _ _ E1 K) as O. cbn [feed] in H. destruct (call lx1 f') as (lx2 & [rs2| | |]) eqn:Ec; try discriminate.
  rewrite (call_capacity _ _ _ _ Ec) in O. discriminate O.
Qed.
Lemma succeeds_limited : forall pre, succeeds name pre ->
  (forall pre' f' post' l' h' a', pre = pre' ++ f' :: post' -> ~ overflows pre' f' l' h' a') ->
  exists lx rs, feed (lx_new name m) pre = (lx, Ok rs).
Proof.
  intros pre (lx & rs & H) Hn. destruct (feed_cases pre (lx_new name m)) as [(pre' & f & post & lx1 & rs1 & e & -> & H1 & H2)|K].
  - destruct (over_overflow _ _ _ _ _ H1 H2) as (l & h & a & O & _). destruct (Hn pre' f post l h a eq_refl O).
  - change (unlimit (lx_new name m)) with (lx_new name 0) in K. rewrite H in K. destruct (feed (lx_new name m) pre) as (lx2 & r). injection K as _ <-. eauto.
Qed.
Lemma no_too_long : forall fs l h a m', lex_fragments name 0 fs <> Err (Error_ l (MTooLong h a m')).
Proof.
  intros fs l h a m' H. apply errors_explained in H as [(ts & l' & v & _ & H)|[(ts & l' & v & x & t & b1 & b2 & _ & _ & _ & H & _)|(ts & l' & v & h' & a' & _ & _ & H & _)]].
  - inversion H.
  - inversion H.
  - lia.
Qed.
Lemma unlimited_same : forall fs, feed (lx_new name 0) fs = (unlimit (fst (feed (lx_new name m) fs)), snd (feed (lx_new name m) fs)) ->
  lex_fragments name m fs = lex_fragments name 0 fs.
Proof.
  intros fs H. unfold lex_fragments. rewrite H. destruct (feed (lx_new name m) fs) as (lx & [rs| | |]); try reflexivity. cbn [fst snd bind].
  destruct (lx_flush lx) as (lx2 & r) eqn:E. rewrite (unlimit_flush _ _ _ E). reflexivity.
Qed.
Lemma limit_cases : forall fs, (exists l h a, first_overflow name m fs l h a /\ lex_fragments name m fs = Err (Error_ l (MTooLong h a m))) \/
  lex_fragments name m fs = lex_fragments name 0 fs /\ feed (lx_new name 0) fs = (unlimit (fst (feed (lx_new name m) fs)), snd (feed (lx_new name m) fs)).
Proof.
  intros fs. destruct (feed_cases fs (lx_new name m)) as [(pre & f & post & lx1 & rs & e & -> & H & K)|H].
  - left. destruct (over_overflow _ _ _ _ _ H K) as (l & h & a & O & ->). exists l, h, a. split.
    + exists pre, f, post. split; [reflexivity|]. split; [exists (unlimit lx1), rs; exact (unlimit_feed _ _ _ _ H)|]. split; [exact O|]. exact (none_earlier _ _ _ H).
    + pose proof (over_feed pre f post _ _ _ _ H K) as E. unfold lex_fragments. destruct (feed (lx_new name m) (pre ++ f :: post)) as (lx & r). cbn in E. subst r. reflexivity.
  - right. split; [|exact H]. apply unlimited_same. exact H.
Qed.
Lemma first_rejects : forall fs l h a, first_overflow name m fs l h a -> lex_fragments name m fs = Err (Error_ l (MTooLong h a m)).
Proof.
  intros fs l h a (pre & f & post & -> & Hs & O & Hn). destruct (succeeds_limited pre Hs Hn) as (lx & rs & H).
  pose proof (over_feed pre f post _ _ _ _ H (overflow_over _ _ _ _ _ _ _ H O)) as E. unfold lex_fragments. destruct (feed (lx_new name m) (pre ++ f :: post)) as (lx2 & r). cbn in E. subst r. reflexivity.
Qed.
Lemma limit_iff : forall fs l h a m', lex_fragments name m fs = Err (Error_ l (MTooLong h a m')) <-> m' = m /\ first_overflow name m fs l h a.
Proof.
  intros fs l h a m'. split; [|intros (-> & H); apply first_rejects; exact H]. intros H.
  destruct (limit_cases fs) as [(l' & h' & a' & K & E)|(E & _)].
  - rewrite H in E. injection E as -> -> -> ->. auto.
  - rewrite H in E. symmetry in E. destruct (no_too_long _ _ _ _ _ E).
Qed.
Lemma limit_same_iff : forall fs, lex_fragments name m fs = lex_fragments name 0 fs <-> (forall l h a, ~ first_overflow name m fs l h a).
Proof.
  intros fs. split.
  - intros E l h a K. apply first_rejects in K. rewrite E in K. exact (no_too_long _ _ _ _ _ K).
  - intros H. destruct (limit_cases fs) as [(l & h & a & K & _)|(E & _)]; [destruct (H l h a K)|exact E].
Qed.
End Limit.

(** One character at a time. *)
Lemma lexes_split : forall ts1 l s t ts2, lexes l s (ts1 ++ t :: ts2) -> exists l1 s1, s = flat_map tok_text ts1 ++ s1 /\ lexes l1 s1 (t :: ts2) /\
  forall x, x <> [] -> hd_error x = hd_error s1 -> steps l (flat_map tok_text ts1 ++ x) ts1 l1 x.
Proof.
  induction ts1 as [|t1 ts1 IH]; intros l s t ts2 H.
  - exists l, s. split; [reflexivity|]. split; [exact H|]. intros x _ _. constructor.
  - cbn [app] in H. inversion H as [|l0 l2 t0 rest ts0 Hv Hl Hf Hr Hlex Es Et]; subst.
    + destruct ts1; discriminate.
    + destruct (IH _ _ _ _ Hlex) as (l1 & s1 & Es1 & K1 & K2). exists l1, s1. cbn [flat_map]. rewrite <- app_assoc. split; [f_equal; exact Es1|]. split; [exact K1|].
      intros x Hx Hh. rewrite <- app_assoc. apply reaches_push in Hr. subst l2.
      assert (Hd : hd_error (flat_map tok_text ts1 ++ x) = hd_error rest).
      { rewrite Es1. destruct (flat_map tok_text ts1); [exact Hh|reflexivity]. }
      assert (Hc : certain t1 (flat_map tok_text ts1 ++ x)).
      { destruct (flat_map tok_text ts1 ++ x) as [|c r] eqn:Ec.
        - apply app_eq_nil in Ec as (_ & ->). congruence.
        - cbn in Hd. rewrite <- Hd in Hf. exact Hf. }
      econstructor; [apply certain_read; [exact Hv|reflexivity|exact Hc]|].
      rewrite firstn_app, Nat.sub_diag, firstn_O, app_nil_r, firstn_all, skipn_app, Nat.sub_diag, skipn_all. apply K2; assumption.
Qed.
Lemma frags_chars : forall s, frags_text (map FChar s) = s.
Proof. induction s as [|c s IH]; [reflexivity|]. cbn. f_equal. exact IH. Qed.
Lemma map_split : forall (s : str) pre f post, map FChar s = pre ++ f :: post -> exists p c q, s = p ++ c :: q /\ pre = map FChar p /\ f = FChar c /\ post = map FChar q.
Proof.
  induction s as [|c s IH]; intros pre f post H; [destruct pre; discriminate|]. destruct pre as [|g pre].
  - injection H as <- <-. exists [], c, s. auto.
  - injection H as <- H. destruct (IH _ _ _ H) as (p & c' & q & -> & -> & -> & ->). exists (c :: p), c', q. auto.
Qed.
Lemma part_stuck : forall l t rest p q, valid_tok t -> tok_loc t = l -> follows t (hd_error rest) -> tok_text t = p ++ q -> q <> [] -> stuck l p.
Proof.
  intros l t rest p q Hv Hl Hf E Hq.
  assert (K : forall o, read_next l p false = o -> o <> Ok None -> read_next l (tok_text t ++ rest) false = o /\ read_next l (tok_text t) false = o).
  { intros o Ho Hn. rewrite E, <- app_assoc. split; (rewrite read_next_stable; [exact Ho|rewrite Ho; exact Hn]). }
  unfold stuck. pose proof (read_next_no_panic l p false) as Np. destruct (read_next l p false) as [[(t' & n)|]|e|x|] eqn:Ep; try (destruct Np; fail).
  - exfalso. destruct (K _ eq_refl ltac:(discriminate)) as (K1 & K2). destruct (read_next_split _ _ _ _ _ Ep) as (_ & _ & Hn).
    destruct (read_next_complete l t rest Hv Hl Hf) as [C|(_ & C & _)]; [|congruence]. rewrite C in K1. injection K1 as _ K1. rewrite E, app_length in K1. destruct q; [congruence|cbn in K1; lia].
  - reflexivity.
  - exfalso. destruct (K _ eq_refl ltac:(discriminate)) as (K1 & K2). destruct (read_next_complete l t rest Hv Hl Hf) as [C|(_ & C & _)]; congruence.
Qed.
Lemma chars_pf : forall name m s ts rs, (0 < m)%N -> parse_str name s = Ok rs -> lexes (loc_new name) s ts ->
  (roomy m ts /\ lex_fragments name m (map FChar s) = Ok rs) \/
  (~ roomy m ts /\ exists l, lex_fragments name m (map FChar s) = Err (Error_ l (MTooLong m 1 m))).
Proof.
  intros name m s ts rs Hm Hp Hlex.
  pose proof (frags_same_outcome name s ts Hlex (map FChar s) (frags_chars s)) as E0. rewrite Hp in E0.
  destruct (limit_cases name m Hm (map FChar s)) as [(l & h & a & F & E)|(E & Ef)].
  - right. destruct F as (pre & f & post & Es & Hs & O & Hn). apply map_split in Es as (p & c & q & -> & -> & -> & ->).
    destruct (succeeds_limited name m _ Hs Hn) as (lx & rs' & Hl). destruct (feed_kept _ _ _ _ _ Hl) as (Hg & ts' & Hk').
    destruct O as (ts1 & b & Hk & -> & -> & Hlt). destruct (keeps_fun _ _ _ _ _ _ _ _ Hk Hk') as (_ & -> & ->). rewrite frags_chars in Hk. cbn [frag_text length] in *.
    destruct (feed_max _ _ _ _ Hl) as (Hmx & Hw). change (lmax (lx_new name m)) with m in Hmx.
    assert (Hb : N.of_nat (length (buf lx)) = m).
    { unfold within in Hw. fold (lmax lx) (buf lx) in Hw. rewrite Hmx in Hw. specialize (Hw ltac:(cbn; lia) Hm). lia. }
    split; [|exists (loc lx); rewrite E, Hb; reflexivity]. intros R.
    apply keeps_steps in Hk as (Hst & _). pose proof (steps_app _ _ _ _ _ Hst (c :: q)) as Hst'.
    destruct (lexes_steps_suffix _ _ _ _ _ Hst' _ Hlex) as (ts2 & -> & Hlex2).
    assert (Hne : buf lx <> []) by (intros K; rewrite K in Hb; cbn in Hb; lia).
    destruct (pending_token _ _ _ _ Hg Hne Hlex2) as (t & ts3 & -> & Hle).
    inversion Hlex2 as [l0 K1 K2|l0 l' t0 rest ts0 Hv Hlt0 Hf Hr Hlex3 K0 K1 K2].
    { destruct (buf lx); discriminate. }
    subst t0 ts0. destruct (R ts1 t ts3 eq_refl) as [R1|(R1 & R2)]; [lia|].
    assert (Et : tok_text t = buf lx /\ rest = c :: q).
    { assert (Len : length (tok_text t) = length (buf lx)) by lia. split.
      - apply (f_equal (firstn (length (buf lx)))) in K1. rewrite <- Len in K1 at 1. rewrite !firstn_app, !Nat.sub_diag, !firstn_O, !app_nil_r, !firstn_all in K1. exact K1.
      - apply (f_equal (skipn (length (buf lx)))) in K1. rewrite <- Len in K1 at 1. rewrite !skipn_app, !Nat.sub_diag, !skipn_all in K1. exact K1. }
    destruct Et as (Et & ->). destruct R2 as [R2|(l2 & ->)].
    + pose proof (ends_read (loc lx) t Hv Hlt0 R2) as K. rewrite Et in K. unfold good, stuck in Hg. rewrite Hg in K. discriminate K.
    + inversion Hlex3 as [|l3 l4 t4 rest4 ts4 Hv4 _ _ _ Hlex4 K3 K4]; subst. destruct Hv4.
  - left. split; [|rewrite E; exact E0]. intros ts1 t ts2 ->.
    assert (Hok : exists lx rs', feed (lx_new name m) (map FChar s) = (lx, Ok rs')).
    { rewrite E0 in E. unfold lex_fragments in E. destruct (feed (lx_new name m) (map FChar s)) as (lx & [rs'| | |]); try discriminate E. eauto. }
    destruct Hok as (lx & rs' & Hok). pose proof (none_earlier name m Hm _ _ _ Hok) as Hnone.
    destruct (N.lt_ge_cases (N.of_nat (length (tok_text t))) m) as [Hlt|Hge]; [left; exact Hlt|right].
    destruct (lexes_split _ _ _ _ _ Hlex) as (l1 & s1 & -> & Hl1 & Hsteps).
    inversion Hl1 as [l0 K1 K2|l0 l' t0 rest ts0 Hv Hlt0 Hf Hr Hlex3 K1 K2]; subst; [cbn in Hge; lia|].
    assert (Over : forall p c q, tok_text t ++ rest = p ++ c :: q -> p <> [] -> stuck (tok_loc t) p -> m = N.of_nat (length p) -> False).
    { intros p c q Ep Hp0 Hst Hlen. apply (Hnone (map FChar (flat_map tok_text ts1 ++ p)) (FChar c) (map FChar q) (tok_loc t) (N.of_nat (length p)) 1%N).
      - rewrite Ep, app_assoc, (map_app FChar (_ ++ p)). reflexivity.
      - exists ts1, p. rewrite frags_chars. split; [|split; [reflexivity|split; [reflexivity|lia]]]. apply keeps_steps. split.
        + apply Hsteps; [exact Hp0|]. rewrite Ep. destruct p; [congruence|reflexivity].
        + intros t' n. rewrite Hst. discriminate. }
    assert (Hsplit : tok_text t = firstn (N.to_nat m) (tok_text t) ++ skipn (N.to_nat m) (tok_text t)) by (symmetry; apply firstn_skipn).
    assert (Hlen : length (firstn (N.to_nat m) (tok_text t)) = N.to_nat m) by (rewrite firstn_length; lia).
    destruct (skipn (N.to_nat m) (tok_text t)) as [|c q] eqn:Eq.
    + rewrite app_nil_r in Hsplit. rewrite <- Hsplit in Hlen. split; [lia|].
      destruct (read_next_complete (tok_loc t) t [] Hv eq_refl I) as [C|(_ & C & _)].
      * left. apply read_certain in C as (r & Er & _ & _ & _ & C). apply app_inv_head in Er. subst r. exact C.
      * right. destruct rest as [|c r].
        -- inversion Hlex3 as [l5|l5 l6 t6 r6 ts6 Hv6 _ _ _ _ K4 K5 K6]; [eauto|]. exfalso. apply app_eq_nil in K5 as (K5 & _).
           pose proof (text_pos _ Hv6) as P. rewrite K5 in P. cbn in P. lia.
        -- exfalso. apply (Over (tok_text t) c r eq_refl); [intros Z; rewrite Z in Hlen; cbn in Hlen; lia|exact C|lia].
    + exfalso. apply (Over (firstn (N.to_nat m) (tok_text t)) c (q ++ rest)).
      * rewrite Hsplit at 1. rewrite <- app_assoc. reflexivity.
      * intros Z. rewrite Z in Hlen. cbn in Hlen. lia.
      * eapply (part_stuck _ t rest); [exact Hv|reflexivity|exact Hf|exact Hsplit|discriminate].
      * rewrite Hlen. lia.
Qed.
