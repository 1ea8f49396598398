(** Runs of the lexer: fragments, limits, histories. *)
From Coq Require Import String List NArith Arith Bool Lia.
From Verif Require Import Base Tokenizer Ast Lex SpecText TextFacts SpecTok TokFacts TokRun SpecLex.
Import ListNotations.
Open Scope nat_scope.

Definition buf (lx : lexer) := tk_buf (lx_tk lx).
Definition loc (lx : lexer) := tk_loc (lx_tk lx).
Definition lmax (lx : lexer) := tk_max (lx_tk lx).
Definition good (lx : lexer) : Prop := stuck (loc lx) (buf lx).
Definition fails {A} (r : res A) : Prop := match r with Ok _ => False | _ => True end.

Lemma good_new : forall name max, good (lx_new name max).
Proof. intros. reflexivity. Qed.

(** ** Tokens to rules *)
Lemma append_loop_app : forall a cur b,
  append_loop cur (a ++ b) =
  match append_loop cur a with
  | (c, Ok rs) =>
      match append_loop c b with
      | (c', Ok rs') => (c', Ok (rs ++ rs'))
      | x => x
      end
  | x => x
  end.
Proof.
  induction a as [|t a IH]; intros cur b; cbn [append_loop app].
  - destruct (append_loop cur b) as [c [| | |]]; reflexivity.
  - destruct (is_terminator t).
    + destruct (build_syntax_rule (cur ++ [t])) as [o| | |]; try reflexivity.
      rewrite IH. destruct (append_loop [] a) as [c [rs| | |]]; try reflexivity.
      destruct (append_loop c b) as [c' [rs'| | |]]; try reflexivity.
      rewrite app_assoc. reflexivity.
    + apply IH.
Qed.

Lemma append_loop_count : forall ts cur c rs, append_loop cur ts = (c, Ok rs) ->
  length rs <= length (filter is_terminator ts).
Proof.
  induction ts as [|t ts IH]; intros cur c rs H; cbn [append_loop] in H.
  - injection H as <- <-. cbn. lia.
  - cbn [filter]. destruct (is_terminator t).
    + destruct (build_syntax_rule (cur ++ [t])) as [o| | |]; try discriminate.
      destruct (append_loop [] ts) as [c' [rs'| | |]] eqn:E; try discriminate.
      injection H as <- <-. apply IH in E. rewrite app_length. cbn [length].
      destruct o; cbn [opt_list length]; lia.
    + eapply IH; exact H.
Qed.

Lemma append_loop_rest : forall ts cur c rs, append_loop cur ts = (c, Ok rs) ->
  existsb is_terminator cur = false -> existsb is_terminator c = false.
Proof.
  induction ts as [|t ts IH]; intros cur c rs H Hc; cbn [append_loop] in H.
  - injection H as <- <-. exact Hc.
  - destruct (is_terminator t) eqn:Et.
    + destruct (build_syntax_rule (cur ++ [t])) as [o| | |]; try discriminate.
      destruct (append_loop [] ts) as [c' [rs'| | |]] eqn:E; try discriminate.
      injection H as <- <-. apply IH in E; auto.
    + eapply IH; [exact H|]. rewrite existsb_app, Hc. cbn. rewrite Et. reflexivity.
Qed.

(** ** One call *)
Lemma push_tl : forall tk s, over_capacity tk (length s) = None ->
  tk_push_str tk s =
  match tl (tk_loc tk) (tk_buf tk ++ s) with
  | (l, Ok (ts, rest)) => (Tk (tk_max tk) rest l, Ok ts)
  | (l, Err e) => (Tk (tk_max tk) (tk_buf tk ++ s) l, Err e)
  | (l, Panic p) => (Tk (tk_max tk) (tk_buf tk ++ s) l, Panic p)
  | (l, OutOfFuel) => (Tk (tk_max tk) (tk_buf tk ++ s) l, OutOfFuel)
  end.
Proof.
  intros tk s H. unfold tk_push_str. rewrite H. unfold tokenize, tl. cbn [tk_loc tk_buf tk_max].
  reflexivity.
Qed.

Lemma unlimited_capacity : forall tk n, tk_max tk = 0%N -> over_capacity tk n = None.
Proof. intros tk n H. unfold over_capacity. rewrite H. reflexivity. Qed.

(** One character decides at most the pending token and itself. *)
Lemma stuck_char : forall l b c t n, stuck l b ->
  read_next l (b ++ [c]) false = Ok (Some (t, n)) -> length b <= n.
Proof.
  intros l b c t n Hst H.
  destruct (Nat.le_gt_cases (length b) n) as [Hle|Hlt]; [exact Hle|exfalso].
  apply read_next_sound in H as Hd. destruct Hd as (rest & Hb & Hn & Hpos & Hv & Hl & Hf).
  specialize (Hf eq_refl).
  assert (Hsplit : exists r', b = tok_text t ++ r' /\ rest = r' ++ [c] /\ r' <> []).
  { exists (skipn n b).
    assert (Hfb : firstn n b = tok_text t).
    { transitivity (firstn n (b ++ [c])).
      - rewrite firstn_app. replace (n - length b) with 0 by lia. rewrite firstn_O, app_nil_r. reflexivity.
      - rewrite Hb, Hn, firstn_app, Nat.sub_diag, firstn_O, app_nil_r, firstn_all. reflexivity. }
    split; [rewrite <- Hfb; symmetry; apply firstn_skipn|]. split.
    - assert (E : skipn n (b ++ [c]) = rest).
      { rewrite Hb, Hn, skipn_app, Nat.sub_diag, skipn_all. reflexivity. }
      rewrite <- E, skipn_app. replace (n - length b) with 0 by lia. reflexivity.
    - intros E. apply (f_equal (@length N)) in E. rewrite skipn_length in E. cbn in E. lia. }
  destruct Hsplit as (r' & -> & -> & Hr').
  destruct (read_next_complete l t r' Hv Hl) as [E|(E & _)]; [|unfold stuck in Hst; congruence|congruence].
  destruct r'; [congruence|exact Hf].
Qed.

Lemma filter_none : forall (ts : list token), Forall (fun t => is_terminator t = false) ts ->
  filter is_terminator ts = [].
Proof. induction ts; intros H; inversion H; subst; cbn; [reflexivity|]. rewrite H2. auto. Qed.

Lemma text_pos : forall t, valid_tok t -> 0 < length (tok_text t).
Proof.
  intros t H.
  destruct (read_next_complete (tok_loc t) t [] H eq_refl I) as [E|(_ & _ & E)];
    apply read_next_sound in E as (? & _ & Hn & Hpos & _); lia.
Qed.

Lemma valid_length_le : forall ts, Forall valid_tok ts ->
  length ts <= length (flat_map tok_text ts).
Proof.
  induction ts as [|t ts IH]; intros H; [cbn; lia|]. inversion H; subst.
  cbn [flat_map length]. rewrite app_length. pose proof (text_pos t H2). specialize (IH H3). lia.
Qed.

Lemma filter_len : forall (ts : list token), length (filter is_terminator ts) <= length ts.
Proof. induction ts; cbn; [lia|]. destruct (is_terminator a); cbn; lia. Qed.

Lemma steps_inv : forall l b t ts l' b', steps l b (t :: ts) l' b' -> exists n,
  read_next l b false = Ok (Some (t, n)) /\
  steps (loc_push_str l (firstn n b)) (skipn n b) ts l' b'.
Proof. intros. inversion H; subst. eauto. Qed.

Lemma stuck_terminator : forall l b t, stuck l b -> b <> [] ->
  firstn (length b) (tok_text t) = b -> valid_tok t -> is_terminator t = false.
Proof.
  intros l b t Hst Hb Hpre Hv.
  destruct t; try reflexivity; cbn in Hv; [|destruct Hv].
  destruct b as [|x b]; [congruence|]. cbn in Hpre.
  exfalso. destruct (length b); injection Hpre as <- <-; destruct Hv as [->| ->]; discriminate.
Qed.

Lemma char_terminators : forall l b c ts l' b', stuck l b ->
  steps l (b ++ [c]) ts l' b' -> length (filter is_terminator ts) <= 1.
Proof.
  intros l b c ts l' b' Hst H.
  destruct b as [|x b0].
  - cbn [app] in H. pose proof (steps_valid _ _ _ _ _ H) as Hv.
    apply steps_text in H as (Htxt & _).
    pose proof (valid_length_le _ Hv). pose proof (filter_len ts).
    apply (f_equal (@length N)) in Htxt. rewrite app_length in Htxt. cbn in Htxt. lia.
  - set (b := x :: b0) in *. destruct ts as [|t ts]; [cbn; lia|].
    apply steps_inv in H as (n & Hrn & Hs).
    pose proof (stuck_char _ _ _ _ _ Hst Hrn) as Hn.
    destruct (read_next_split _ _ _ _ _ Hrn) as (Hfirst & Hb & _).
    apply read_next_sound in Hrn as Hd. destruct Hd as (rest & _ & Hlen & _ & Hv & Hl & _).
    assert (Ht : is_terminator t = false).
    { eapply (stuck_terminator l b t); try eassumption; [unfold b; discriminate|].
      rewrite <- Hfirst, firstn_firstn. rewrite Nat.min_l by lia.
      rewrite firstn_app, Nat.sub_diag, firstn_O, app_nil_r, firstn_all. reflexivity. }
    cbn [filter]. rewrite Ht.
    pose proof (steps_valid _ _ _ _ _ Hs) as Hv2.
    apply steps_text in Hs as (Htxt & _).
    pose proof (valid_length_le _ Hv2). pose proof (filter_len ts).
    apply (f_equal (@length N)) in Htxt. rewrite app_length, skipn_length, app_length in Htxt.
    cbn [length] in Htxt. lia.
Qed.

(** The rules a call makes. *)
Definition call_rules (lx : lexer) (f : fragment) : lexer * res (list rule) :=
  let '(tk, r) := tk_push_str (lx_tk lx) (frag_text f) in lx_append lx tk r.

Lemma hd_short : forall {A} (l : list A), length l <= 1 -> opt_list (hd_error l) = l.
Proof. intros A [|a [|b l]] H; cbn in *; auto. lia. Qed.

Lemma push_at_most_one : forall lx c tk r lx' rs, good lx ->
  tk_push (lx_tk lx) c = (tk, r) -> lx_append lx tk r = (lx', Ok rs) -> length rs <= 1.
Proof.
  intros lx c tk r lx' rs Hg Hp Ha. unfold tk_push in Hp.
  unfold lx_append in Ha. destruct r as [new| | |]; try discriminate.
  destruct (append_loop (lx_tokens lx) new) as [ts rs0] eqn:E. injection Ha as <- ->.
  apply append_loop_count in E.
  destruct (over_capacity (lx_tk lx) (length [c])) eqn:Eo.
  { unfold tk_push_str in Hp. rewrite Eo in Hp. discriminate. }
  rewrite push_tl in Hp by exact Eo.
  destruct (tl (tk_loc (lx_tk lx)) (tk_buf (lx_tk lx) ++ [c])) as [l [[ts' rest]| | |]] eqn:Et; try discriminate.
  injection Hp as <- <-. apply tl_ok in Et as (Hs & _).
  pose proof (char_terminators _ _ _ _ _ _ Hg Hs). lia.
Qed.

Lemma call_eq : forall lx f, good lx -> call lx f = call_rules lx f.
Proof.
  intros lx [c|s] Hg; unfold call, call_rules, frag_text; [|reflexivity].
  unfold lx_push.
  destruct (tk_push (lx_tk lx) c) as [tk r] eqn:Ep.
  change (tk_push_str (lx_tk lx) [c]) with (tk_push (lx_tk lx) c). rewrite Ep.
  destruct (lx_append lx tk r) as [lx' rs] eqn:Ea.
  destruct rs as [rs| | |]; try reflexivity.
  cbn [first_rule bind]. rewrite hd_short; [reflexivity|].
  eapply push_at_most_one; eassumption.
Qed.

Lemma flush_at_most_one : forall lx tk r lx' rs, good lx ->
  tk_flush (lx_tk lx) = (tk, r) -> lx_append lx tk r = (lx', Ok rs) -> length rs <= 1.
Proof.
  intros lx tk r lx' rs Hg Hf Ha. unfold lx_append in Ha.
  destruct r as [new| | |]; try discriminate.
  destruct (append_loop (lx_tokens lx) new) as [ts rs0] eqn:E. injection Ha as <- ->.
  apply append_loop_count in E. unfold good, loc, buf in Hg.
  destruct (lx_tk lx) as [mx b l]. cbn [tk_buf tk_loc] in *.
  unfold tk_flush in Hf. cbn [tk_buf tk_loc tk_max] in Hf.
  destruct (read_next l b true) as [[[t n]|]|e|p|] eqn:Er; try discriminate.
  - destruct (read_next_flush _ _ _ _ Hg Er) as (-> & Hb). rewrite skipn_all in Hf.
    injection Hf as <- <-. cbn [filter is_terminator] in E.
    apply read_next_sound in Er as Hd. destruct Hd as (rest & _ & _ & Hpos & Hv & Hl & _).
    cbn [app filter] in E.
    assert (Ht : is_terminator t = false).
    { eapply (stuck_terminator l b t); try eassumption; [destruct b; [cbn in Hpos; lia|discriminate]|].
      rewrite <- Hb. apply firstn_all. }
    rewrite Ht in E. cbn in E. lia.
  - cbn [skipn firstn] in Hf. destruct b as [|c b]; [|discriminate].
    injection Hf as <- <-. cbn in E. lia.
Qed.

(** ** Fragments *)
Lemma feed_run : forall fs lx ts l' b', good lx -> lmax lx = 0%N ->
  steps (loc lx) (buf lx ++ frags_text fs) ts l' b' ->
  (forall t n, read_next l' b' false <> Ok (Some (t, n))) ->
  match append_loop (lx_tokens lx) ts with
  | (c, Ok rs) =>
      match read_next l' b' false with
      | Err e => snd (feed lx fs) = Err e
      | _ => feed lx fs = (Lx (Tk 0 b' l') c, Ok rs)
      end
  | (_, x) =>
      match read_next l' b' false with
      | Err e => snd (feed lx fs) = x \/ snd (feed lx fs) = Err e
      | _ => snd (feed lx fs) = x
      end
  end.
Proof.
  induction fs as [|f fs IH]; intros lx ts l' b' Hg Hm Hs Hend.
  - cbn [frags_text flat_map] in Hs. rewrite app_nil_r in Hs.
    destruct (steps_det _ _ _ _ _ Hs Hend [] (loc lx) (buf lx)) as (-> & -> & ->).
    { constructor. } { intros t n. rewrite Hg. congruence. }
    cbn [append_loop]. rewrite Hg. cbn [feed].
    destruct lx as [[mx b l] cur]. cbn in *. subst mx. reflexivity.
  - cbn [frags_text flat_map] in Hs. fold (frags_text fs) in Hs.
    cbn [feed]. rewrite call_eq by exact Hg. unfold call_rules.
    rewrite push_tl by (apply unlimited_capacity; exact Hm).
    fold (loc lx) (buf lx). rewrite app_assoc in Hs.
    destruct (tl_cases (loc lx) (buf lx ++ frag_text f)) as [(l1 & ts1 & b1 & Et)|(l1 & e & Et)]; rewrite Et.
    + apply tl_ok in Et as (Hs1 & Hst1).
      pose proof (steps_app _ _ _ _ _ Hs1 (frags_text fs)) as Hs1'.
      destruct (tl_steps l1 (b1 ++ frags_text fs)) as (ts2 & l2 & b2 & Hs2 & Hcase).
      assert (Hend2 : forall t n, read_next l2 b2 false <> Ok (Some (t, n))).
      { intros t n. destruct Hcase as [(H & _)|(e & H & _)]; rewrite H; congruence. }
      destruct (steps_det _ _ _ _ _ Hs Hend _ _ _ (steps_trans _ _ _ _ _ Hs1' _ _ _ Hs2) Hend2)
        as (-> & -> & ->). clear Hcase.
      unfold lx_append. rewrite append_loop_app.
      fold (lmax lx). rewrite Hm.
      destruct (append_loop (lx_tokens lx) ts1) as [c1 [rs1|e1|p1|]].
      * specialize (IH (Lx (Tk 0 b1 l1) c1) ts2 l2 b2 Hst1 eq_refl Hs2 Hend2).
        cbn [lx_tokens] in IH.
        destruct (append_loop c1 ts2) as [c2 [rs2| | |]].
        -- destruct (read_next l2 b2 false) as [| | |]; try (rewrite IH; reflexivity).
           destruct (feed {| lx_tk := {| tk_max := 0; tk_buf := b1; tk_loc := l1 |}; lx_tokens := c1 |} fs)
             as [lx3 r3]. cbn [snd] in IH. subst r3. reflexivity.
        -- destruct (feed {| lx_tk := {| tk_max := 0; tk_buf := b1; tk_loc := l1 |}; lx_tokens := c1 |} fs)
             as [lx3 r3]. cbn [snd] in IH.
           destruct (read_next l2 b2 false); [subst r3; reflexivity| |subst r3; reflexivity|subst r3; reflexivity].
           destruct IH as [->| ->]; auto.
        -- destruct (feed {| lx_tk := {| tk_max := 0; tk_buf := b1; tk_loc := l1 |}; lx_tokens := c1 |} fs)
             as [lx3 r3]. cbn [snd] in IH.
           destruct (read_next l2 b2 false); [subst r3; reflexivity| |subst r3; reflexivity|subst r3; reflexivity].
           destruct IH as [->| ->]; auto.
        -- destruct (feed {| lx_tk := {| tk_max := 0; tk_buf := b1; tk_loc := l1 |}; lx_tokens := c1 |} fs)
             as [lx3 r3]. cbn [snd] in IH.
           destruct (read_next l2 b2 false); [subst r3; reflexivity| |subst r3; reflexivity|subst r3; reflexivity].
           destruct IH as [->| ->]; auto.
      * cbn [snd]. destruct (read_next l2 b2 false); auto.
      * cbn [snd]. destruct (read_next l2 b2 false); auto.
      * cbn [snd]. destruct (read_next l2 b2 false); auto.
    + apply tl_err in Et as (ts1 & b1 & Hs1 & He).
      pose proof (steps_app _ _ _ _ _ Hs1 (frags_text fs)) as Hs1'.
      assert (He' : read_next l1 (b1 ++ frags_text fs) false = Err e).
      { rewrite read_next_stable by congruence. exact He. }
      destruct (steps_det _ _ _ _ _ Hs Hend _ _ _ Hs1' ltac:(congruence)) as (-> & -> & ->).
      rewrite He'. cbn [lx_append snd].
      destruct (append_loop (lx_tokens lx) ts1) as [c1 [| | |]]; auto.
Qed.

(** The two outcomes possible for a text: the lexical one, and the grammatical one. *)
Lemma frags_outcome : forall name s, exists o1 o2,
  (forall fs, frags_text fs = s -> lex_fragments name 0 fs = o1 \/ lex_fragments name 0 fs = o2) /\
  ((exists ts, lexes (loc_new name) s ts) -> o1 = o2) /\
  (is_ok o1 = true \/ is_ok o2 = true -> o1 = o2).
Proof.
  intros name s.
  destruct (tl_steps (loc_new name) s) as (ts & l' & b' & Hs & Hcase).
  assert (Hend : forall t n, read_next l' b' false <> Ok (Some (t, n))).
  { intros t n. destruct Hcase as [(H & _)|(e & H & _)]; rewrite H; congruence. }
  assert (Hrun : forall fs, frags_text fs = s -> _) by
    (intros fs Hfs; refine (feed_run fs (lx_new name 0) ts l' b' (good_new _ _) eq_refl _ Hend);
     cbn [buf loc lx_new lx_tk tk_new tk_buf tk_loc app]; rewrite Hfs; exact Hs).
  cbn [lx_new lx_tokens] in Hrun.
  assert (Hlex : (exists ts, lexes (loc_new name) s ts) -> forall e, read_next l' b' false <> Err e).
  { intros (ts0 & H) e He. apply lexes_steps in H as (ts1 & l1 & b1 & ts2 & Hs1 & Hst1 & _).
    destruct (steps_det _ _ _ _ _ Hs Hend _ _ _ Hs1 ltac:(congruence)) as (-> & -> & ->). congruence. }
  destruct (append_loop [] ts) as [c [rs|g|p|]] eqn:Ea.
  - destruct Hcase as [(Hst & _)|(e & He & _)].
    + rewrite Hst in Hrun.
      set (o := let '(_, r2) := lx_flush (Lx (Tk 0 b' l') c) in let? o := r2 in Ok (rs ++ opt_list o)).
      exists o, o. split; [|split; auto].
      intros fs Hfs. left. unfold lex_fragments, o. rewrite (Hrun fs Hfs). reflexivity.
    + rewrite He in Hrun. exists (Err e), (Err e). split; [|split; auto].
      intros fs Hfs. left. specialize (Hrun fs Hfs). unfold lex_fragments.
      destruct (feed (lx_new name 0) fs). cbn [snd] in Hrun. rewrite Hrun. reflexivity.
  - assert (Hr : forall fs, frags_text fs = s -> snd (feed (lx_new name 0) fs) = Err g ->
                 lex_fragments name 0 fs = Err g).
    { intros fs _ E. unfold lex_fragments. destruct (feed (lx_new name 0) fs). cbn [snd] in E. rewrite E. reflexivity. }
    destruct Hcase as [(Hst & _)|(e & He & _)].
    + rewrite Hst in Hrun. exists (Err g), (Err g). split; [|split; auto]. auto.
    + rewrite He in Hrun. exists (Err g), (Err e). split; [|split].
      * intros fs Hfs. specialize (Hrun fs Hfs). unfold lex_fragments.
        destruct (feed (lx_new name 0) fs). cbn [snd] in Hrun. destruct Hrun as [->| ->]; auto.
      * intros Hx. exfalso. eapply Hlex; eassumption.
      * cbn. intuition discriminate.
  - assert (Hr : forall fs, frags_text fs = s -> snd (feed (lx_new name 0) fs) = Panic p ->
                 lex_fragments name 0 fs = Panic p).
    { intros fs _ E. unfold lex_fragments. destruct (feed (lx_new name 0) fs). cbn [snd] in E. rewrite E. reflexivity. }
    destruct Hcase as [(Hst & _)|(e & He & _)].
    + rewrite Hst in Hrun. exists (Panic p), (Panic p). split; [|split; auto]. auto.
    + rewrite He in Hrun. exists (Panic p), (Err e). split; [|split].
      * intros fs Hfs. specialize (Hrun fs Hfs). unfold lex_fragments.
        destruct (feed (lx_new name 0) fs). cbn [snd] in Hrun. destruct Hrun as [->| ->]; auto.
      * intros Hx. exfalso. eapply Hlex; eassumption.
      * cbn. intuition discriminate.
  - assert (Hr : forall fs, frags_text fs = s -> snd (feed (lx_new name 0) fs) = OutOfFuel ->
                 lex_fragments name 0 fs = OutOfFuel).
    { intros fs _ E. unfold lex_fragments. destruct (feed (lx_new name 0) fs). cbn [snd] in E. rewrite E. reflexivity. }
    destruct Hcase as [(Hst & _)|(e & He & _)].
    + rewrite Hst in Hrun. exists OutOfFuel, OutOfFuel. split; [|split; auto]. auto.
    + rewrite He in Hrun. exists OutOfFuel, (Err e). split; [|split].
      * intros fs Hfs. specialize (Hrun fs Hfs). unfold lex_fragments.
        destruct (feed (lx_new name 0) fs). cbn [snd] in Hrun. destruct Hrun as [->| ->]; auto.
      * intros Hx. exfalso. eapply Hlex; eassumption.
      * cbn. intuition discriminate.
Qed.

Lemma parse_str_fragments : forall name s, parse_str name s = lex_fragments name 0 [FStr s].
Proof.
  intros name s. unfold parse_str, lex_fragments. cbn [feed call].
  destruct (lx_push_str (lx_new name 0) s) as [lx [rs| | |]]; try reflexivity.
  cbn [bind]. rewrite app_nil_r. reflexivity.
Qed.

Lemma frags_ok_iff : forall name fs rs,
  lex_fragments name 0 fs = Ok rs <-> parse_str name (frags_text fs) = Ok rs.
Proof.
  intros name fs rs. rewrite parse_str_fragments.
  destruct (frags_outcome name (frags_text fs)) as (o1 & o2 & H & _ & Hok).
  assert (H1 := H fs eq_refl).
  assert (H2 := H [FStr (frags_text fs)] ltac:(cbn; apply app_nil_r)).
  split; intros E; rewrite E in *.
  - assert (o1 = o2) as -> by (apply Hok; destruct H1 as [<-|<-]; cbn; auto).
    destruct H1 as [<-|<-], H2; congruence.
  - assert (o1 = o2) as -> by (apply Hok; destruct H2 as [<-|<-]; cbn; auto).
    destruct H1, H2 as [<-|<-]; congruence.
Qed.

Lemma frags_same_outcome : forall name s ts, lexes (loc_new name) s ts ->
  forall fs, frags_text fs = s -> lex_fragments name 0 fs = parse_str name s.
Proof.
  intros name s ts Hl fs Hfs. rewrite parse_str_fragments.
  destruct (frags_outcome name s) as (o1 & o2 & H & He & _).
  rewrite (He (ex_intro _ ts Hl)) in H.
  destruct (H fs Hfs) as [->| ->]; destruct (H [FStr s] ltac:(cbn; apply app_nil_r)) as [->| ->]; reflexivity.
Qed.

(** ** Limits *)
Definition within (tk : tokenizer) : Prop :=
  (0 < tk_max tk)%N -> (N.of_nat (length (tk_buf tk)) <= tk_max tk)%N.

Lemma capacity_within : forall tk n, over_capacity tk n = None ->
  (0 < tk_max tk)%N -> (N.of_nat (length (tk_buf tk) + n) <= tk_max tk)%N.
Proof.
  intros tk n H Hm. unfold over_capacity in H.
  destruct (0 <? tk_max tk)%N eqn:E1; [|apply N.ltb_ge in E1; lia].
  destruct (N.ltb_spec (tk_max tk) (N.of_nat (length (tk_buf tk)) + N.of_nat n)) as [|E2]; [discriminate|].
  lia.
Qed.

Lemma tl_rest_length : forall l b l' ts b', tl l b = (l', Ok (ts, b')) -> length b' <= length b.
Proof.
  intros l b l' ts b' H. apply tl_ok in H as (H & _). apply steps_text in H as (-> & _).
  rewrite app_length. lia.
Qed.

Lemma push_str_state : forall tk s tk' r, tk_push_str tk s = (tk', r) ->
  tk_max tk' = tk_max tk /\ l_name (tk_loc tk') = l_name (tk_loc tk) /\
  (within tk -> within tk').
Proof.
  intros tk s tk' r H.
  destruct (over_capacity tk (length s)) as [e|] eqn:Eo.
  - unfold tk_push_str in H. rewrite Eo in H. injection H as <- <-. auto.
  - rewrite push_tl in H by exact Eo. pose proof (capacity_within _ _ Eo) as Hw.
    destruct (tl_cases (tk_loc tk) (tk_buf tk ++ s)) as [(l1 & ts1 & b1 & Et)|(l1 & e & Et)]; rewrite Et in H;
      injection H as <- <-; cbn [tk_max tk_loc tk_buf].
    + pose proof (tl_rest_length _ _ _ _ _ Et) as Hl. rewrite app_length in Hl.
      apply tl_ok in Et as (Hs & _). apply steps_text in Hs as (_ & ->).
      rewrite push_str_name. split; [reflexivity|]. split; [reflexivity|].
      intros _ Hm. cbn [tk_max tk_buf] in *. specialize (Hw Hm). lia.
    + apply tl_err in Et as (ts & b' & Hs & _). apply steps_text in Hs as (_ & ->).
      rewrite push_str_name. split; [reflexivity|]. split; [reflexivity|].
      intros _ Hm. cbn [tk_max tk_buf] in *. specialize (Hw Hm). rewrite app_length. exact Hw.
Qed.

Lemma flush_state : forall tk tk' r, tk_flush tk = (tk', r) ->
  tk_max tk' = tk_max tk /\ l_name (tk_loc tk') = l_name (tk_loc tk) /\
  length (tk_buf tk') <= length (tk_buf tk).
Proof.
  intros tk tk' r H. unfold tk_flush in H.
  assert (Hx : forall n, length (skipn n (tk_buf tk)) <= length (tk_buf tk))
    by (intros n; rewrite skipn_length; lia).
  destruct (read_next (tk_loc tk) (tk_buf tk) true) as [[[t n]|]|e|p|].
  - specialize (Hx n). cbn [tk_buf tk_loc] in H. destruct (skipn n (tk_buf tk)) eqn:E; injection H as <- <-;
      cbn [tk_max tk_loc tk_buf]; rewrite push_str_name; auto.
  - specialize (Hx 0). cbn [tk_buf tk_loc] in H. destruct (skipn 0 (tk_buf tk)) eqn:E; injection H as <- <-;
      cbn [tk_max tk_loc tk_buf]; auto.
  - injection H as <- <-. auto.
  - injection H as <- <-. auto.
  - injection H as <- <-. auto.
Qed.

Lemma append_tk : forall lx tk r, lx_tk (fst (lx_append lx tk r)) = tk.
Proof.
  intros lx tk [new| | |]; try reflexivity. unfold lx_append.
  destruct (append_loop (lx_tokens lx) new). reflexivity.
Qed.

Lemma hstep_state : forall lx h,
  lmax (hstep lx h) = lmax lx /\ l_name (loc (hstep lx h)) = l_name (loc lx) /\
  (within (lx_tk lx) -> within (lx_tk (hstep lx h))).
Proof.
  intros lx h. unfold lmax, loc.
  destruct h as [c|s| |]; cbn [hstep].
  - unfold lx_push, tk_push.
    destruct (tk_push_str (lx_tk lx) [c]) as [tk r] eqn:E. pose proof (append_tk lx tk r) as Ht.
    destruct (lx_append lx tk r) as [lx' rs]. cbn [fst] in *. rewrite Ht.
    apply push_str_state in E. exact E.
  - unfold lx_push_str. destruct (tk_push_str (lx_tk lx) s) as [tk r] eqn:E.
    rewrite append_tk. apply push_str_state in E. exact E.
  - unfold lx_flush. destruct (tk_flush (lx_tk lx)) as [tk r] eqn:E. pose proof (append_tk lx tk r) as Ht.
    destruct (lx_append lx tk r) as [lx' rs]. cbn [fst] in *. rewrite Ht.
    apply flush_state in E as (H1 & H2 & H3). split; [exact H1|]. split; [exact H2|].
    intros Hw Hm. rewrite H1 in *. specialize (Hw Hm). lia.
  - cbn. split; [reflexivity|]. split; [reflexivity|]. intros _ Hm. cbn. lia.
Qed.

Lemma history_state : forall hs lx,
  lmax (history lx hs) = lmax lx /\ l_name (loc (history lx hs)) = l_name (loc lx) /\
  (within (lx_tk lx) -> within (lx_tk (history lx hs))).
Proof.
  induction hs as [|h hs IH]; intros lx; [cbn; auto|].
  change (history lx (h :: hs)) with (history (hstep lx h) hs).
  destruct (IH (hstep lx h)) as (H1 & H2 & H3). destruct (hstep_state lx h) as (G1 & G2 & G3).
  split; [congruence|]. split; [congruence|]. auto.
Qed.

Lemma history_bound : forall name m hs, (0 < m)%N ->
  (N.of_nat (length (buf (history (lx_new name m) hs))) <= m)%N.
Proof.
  intros name m hs Hm. destruct (history_state hs (lx_new name m)) as (H1 & _ & H3).
  set (lx := history (lx_new name m) hs) in *. clearbody lx.
  unfold lmax, buf in *. cbn [lx_new lx_tk tk_new tk_max] in H1, H3.
  assert (W : within (tk_new name m)) by (intros _; cbn; lia).
  specialize (H3 W). unfold within in H3. rewrite H1 in H3. apply H3. exact Hm.
Qed.

Lemma reset_fresh : forall name m hs,
  lx_reset (history (lx_new name m) hs) = lx_new name m.
Proof.
  intros name m hs. destruct (history_state hs (lx_new name m)) as (H1 & H2 & _).
  set (lx := history (lx_new name m) hs) in *. clearbody lx.
  cbn in H1, H2. unfold lmax, loc in *.
  unfold lx_reset, tk_reset, loc_reset. rewrite H1, H2. reflexivity.
Qed.

(** Forgetting the limit. *)
Definition unlimit (lx : lexer) : lexer :=
  Lx (Tk 0 (buf lx) (loc lx)) (lx_tokens lx).

Lemma unlimit_push : forall lx s tk r, tk_push_str (lx_tk lx) s = (tk, r) ->
  over_capacity (lx_tk lx) (length s) = None ->
  tk_push_str (Tk 0 (buf lx) (loc lx)) s = (Tk 0 (tk_buf tk) (tk_loc tk), r).
Proof.
  intros lx s tk r H Eo. rewrite push_tl in * by (auto using unlimited_capacity).
  cbn [tk_loc tk_buf tk_max]. unfold loc, buf in *.
  destruct (tl_cases (tk_loc (lx_tk lx)) (tk_buf (lx_tk lx) ++ s)) as [(l1 & ts1 & b1 & Et)|(l1 & e & Et)];
    rewrite Et in *; injection H as <- <-; reflexivity.
Qed.

Lemma unlimit_append : forall lx tk r lx' rs,
  lx_append lx tk r = (lx', rs) ->
  lx_append (unlimit lx) (Tk 0 (tk_buf tk) (tk_loc tk)) r = (unlimit lx', rs).
Proof.
  intros lx tk r lx' rs H. unfold lx_append, unlimit in *. cbn [lx_tokens].
  destruct r; try (injection H as <- <-; reflexivity).
  destruct (append_loop (lx_tokens lx) a). injection H as <- <-. reflexivity.
Qed.

Lemma unlimit_call : forall lx f lx' r,
  over_capacity (lx_tk lx) (length (frag_text f)) = None ->
  call lx f = (lx', r) -> call (unlimit lx) f = (unlimit lx', r).
Proof.
  intros lx f lx' r Eo H.
  destruct f as [c|s]; cbn [call frag_text] in *.
  - unfold lx_push, tk_push in *.
    destruct (tk_push_str (lx_tk lx) [c]) as [tk q] eqn:E.
    cbn [unlimit lx_tk]. rewrite (unlimit_push _ _ _ _ E Eo).
    destruct (lx_append lx tk q) as [lx1 rs] eqn:Ea. rewrite (unlimit_append _ _ _ _ _ Ea).
    injection H as <- <-. reflexivity.
  - unfold lx_push_str in *. destruct (tk_push_str (lx_tk lx) s) as [tk q] eqn:E.
    cbn [unlimit lx_tk]. rewrite (unlimit_push _ _ _ _ E Eo). apply unlimit_append. exact H.
Qed.

Lemma call_capacity : forall lx f lx' rs, call lx f = (lx', Ok rs) ->
  over_capacity (lx_tk lx) (length (frag_text f)) = None.
Proof.
  intros lx f lx' rs H.
  destruct (over_capacity (lx_tk lx) (length (frag_text f))) as [e|] eqn:Eo; [exfalso|reflexivity].
  destruct f as [c|s]; cbn [call frag_text] in *.
  - unfold lx_push, tk_push, tk_push_str in H. rewrite Eo in H. discriminate.
  - unfold lx_push_str, tk_push_str in H. rewrite Eo in H. discriminate.
Qed.

Lemma unlimit_feed : forall fs lx lx' rs, feed lx fs = (lx', Ok rs) ->
  feed (unlimit lx) fs = (unlimit lx', Ok rs).
Proof.
  induction fs as [|f fs IH]; intros lx lx' rs H; cbn [feed] in *.
  - injection H as <- <-. reflexivity.
  - destruct (call lx f) as [lx1 [rs1| | |]] eqn:E; try discriminate.
    rewrite (unlimit_call _ _ _ _ (call_capacity _ _ _ _ E) E).
    destruct (feed lx1 fs) as [lx2 [rs2| | |]] eqn:E2; try discriminate.
    rewrite (IH _ _ _ E2). injection H as <- <-. reflexivity.
Qed.

Lemma unlimit_flush : forall lx lx' r, lx_flush lx = (lx', r) ->
  lx_flush (unlimit lx) = (unlimit lx', r).
Proof.
  intros lx lx' r H. unfold lx_flush in *.
  destruct (tk_flush (lx_tk lx)) as [tk q] eqn:E.
  assert (E2 : tk_flush (Tk 0 (buf lx) (loc lx)) = (Tk 0 (tk_buf tk) (tk_loc tk), q)).
  { unfold tk_flush, buf, loc in *. cbn [tk_loc tk_buf tk_max].
    destruct (read_next (tk_loc (lx_tk lx)) (tk_buf (lx_tk lx)) true) as [[[t n]|]|e|p|];
      try (injection E as <- <-; reflexivity).
    - cbn [tk_buf] in E. destruct (skipn n (tk_buf (lx_tk lx))); injection E as <- <-; reflexivity.
    - cbn [tk_buf] in E. destruct (skipn 0 (tk_buf (lx_tk lx))); injection E as <- <-; reflexivity. }
  cbn [unlimit lx_tk]. rewrite E2.
  destruct (lx_append lx tk q) as [lx1 rs] eqn:Ea. rewrite (unlimit_append _ _ _ _ _ Ea).
  injection H as <- <-. reflexivity.
Qed.

Lemma limit_same : forall name m fs rs, lex_fragments name m fs = Ok rs ->
  lex_fragments name 0 fs = Ok rs.
Proof.
  intros name m fs rs H. unfold lex_fragments in *.
  destruct (feed (lx_new name m) fs) as [lx [rs1| | |]] eqn:E; try discriminate.
  apply unlimit_feed in E. change (unlimit (lx_new name m)) with (lx_new name 0) in E. rewrite E.
  cbn [bind] in *. destruct (lx_flush lx) as [lx2 r2] eqn:E2.
  rewrite (unlimit_flush _ _ _ E2). exact H.
Qed.

(** ** When a limit does not matter *)

(** The token that a pending text becomes covers it. *)
Lemma stuck_more : forall l b x t n, stuck l b ->
  read_next l (b ++ x) false = Ok (Some (t, n)) -> length b <= n.
Proof.
  intros l b x t n Hst H.
  destruct (Nat.le_gt_cases (length b) n) as [Hle|Hlt]; [exact Hle|exfalso].
  apply read_next_sound in H as Hd. destruct Hd as (rest & Hb & Hn & Hpos & Hv & Hl & Hf).
  specialize (Hf eq_refl).
  assert (Hfb : firstn n b = tok_text t).
  { transitivity (firstn n (b ++ x)).
    - rewrite firstn_app. replace (n - length b) with 0 by lia. rewrite firstn_O, app_nil_r. reflexivity.
    - rewrite Hb, Hn, firstn_app, Nat.sub_diag, firstn_O, app_nil_r, firstn_all. reflexivity. }
  assert (Hr : rest = skipn n b ++ x).
  { transitivity (skipn n (b ++ x)).
    - rewrite Hb, Hn, skipn_app, Nat.sub_diag, skipn_all. reflexivity.
    - rewrite skipn_app. replace (n - length b) with 0 by lia. reflexivity. }
  assert (Hne : skipn n b <> []).
  { intros E. apply (f_equal (@length N)) in E. rewrite skipn_length in E. cbn in E. lia. }
  assert (Eb : b = tok_text t ++ skipn n b) by (rewrite <- Hfb; symmetry; apply firstn_skipn).
  destruct (read_next_complete l t (skipn n b) Hv Hl) as [E|(E & _)]; [| |congruence].
  - subst rest. destruct (skipn n b); [congruence|exact Hf].
  - rewrite <- Eb in E. unfold stuck in Hst. congruence.
Qed.

(** A pending text is covered by one token of the whole. *)
Lemma pending_token : forall l b x ts, stuck l b -> b <> [] -> lexes l (b ++ x) ts ->
  exists t ts', ts = t :: ts' /\ length b <= length (tok_text t).
Proof.
  intros l b x ts Hst Hb H. inversion H as [l0 El Es|l0 l' t rest ts' Hv Hl Hf Hr Hlex Es Et]; subst.
  - exfalso. destruct b; [congruence|discriminate].
  - exists t, ts'. split; [reflexivity|].
    destruct (read_next_complete _ t rest Hv eq_refl Hf) as [E|(-> & E1 & E2)].
    + rewrite Et in E. eapply stuck_more; eassumption.
    + rewrite app_nil_r in Et. rewrite Et, app_length. lia.
Qed.

Lemma lexes_steps_suffix : forall l s ts1 l1 b1, steps l s ts1 l1 b1 ->
  forall ts, lexes l s ts -> exists ts2, ts = ts1 ++ ts2 /\ lexes l1 b1 ts2.
Proof.
  intros l s ts1 l1 b1 H. induction H as [|l b t n ts1 l' b' Hrn Hs IH]; intros ts Hlex.
  - exists ts. auto.
  - destruct (read_next_split _ _ _ _ _ Hrn) as (Hf & Hb & _).
    inversion Hlex as [l0 El Es|l0 l2 t2 rest ts' Hv Hl Hfo Hr Hlex2 Es Et]; subst.
    { discriminate. }
    destruct (read_next_complete _ t2 rest Hv eq_refl Hfo) as [E|(-> & E1 & E2)].
    + rewrite Hrn in E. injection E as -> ->.
      apply reaches_push in Hr. subst l2.
      rewrite firstn_app, Nat.sub_diag, firstn_O, app_nil_r, firstn_all in IH.
      rewrite skipn_app, Nat.sub_diag, skipn_all in IH.
      destruct (IH _ Hlex2) as (ts2 & -> & H2). exists ts2. auto.
    + rewrite app_nil_r in Hrn. congruence.
Qed.

Lemma feed_limit : forall k m fs lx ts, good lx -> lmax lx = m ->
  (0 < m)%N ->
  lexes (loc lx) (buf lx ++ frags_text fs) ts ->
  Forall (fun t => (N.of_nat (length (tok_text t) + k) <= m)%N) ts ->
  Forall (fun f => length (frag_text f) <= k) fs ->
  snd (feed lx fs) = snd (feed (unlimit lx) fs) /\
  (forall rs, snd (feed lx fs) = Ok rs ->
     fst (feed (unlimit lx) fs) = unlimit (fst (feed lx fs))).
Proof.
  intros k m fs. induction fs as [|f fs IH]; intros lx ts Hg Hm Hmp Hlex Htok Hfr.
  - cbn [feed snd fst]. auto.
  - inversion Hfr as [|f0 fs0 Hk Hfr']; subst f0 fs0.
    cbn [frags_text flat_map] in Hlex. fold (frags_text fs) in Hlex.
    assert (Hcap : over_capacity (lx_tk lx) (length (frag_text f)) = None).
    { unfold over_capacity. fold (buf lx) (lmax lx). rewrite Hm.
      assert (Hbl : (N.of_nat (length (buf lx) + k) <= m)%N).
      { destruct (buf lx) as [|c b] eqn:Eb.
        - cbn [length]. destruct (lexes_shape _ _ _ Hlex) as (ts0 & l' & -> & _).
          apply Forall_app in Htok as (_ & Htok). inversion Htok as [|t0 ts1 Ht _]. cbn in Ht. cbn. exact Ht.
        - destruct (pending_token (loc lx) (buf lx) (frag_text f ++ frags_text fs) ts Hg ltac:(congruence) ltac:(rewrite Eb; exact Hlex))
            as (t & ts' & -> & Hl). rewrite Eb in Hl.
          inversion Htok; subst. lia. }
      destruct (N.ltb_spec m (N.of_nat (length (buf lx)) + N.of_nat (length (frag_text f)))) as [Hlt|_];
        [lia|]. rewrite andb_false_r. reflexivity. }
    cbn [feed].
    destruct (call lx f) as [lx1 r1] eqn:Ec.
    rewrite (unlimit_call _ _ _ _ Hcap Ec).
    destruct r1 as [rs1| | |]; try (cbn [snd fst]; split; [reflexivity|intros; discriminate]).
    assert (Hnext : good lx1 /\ lmax lx1 = m /\ exists ts2, lexes (loc lx1) (buf lx1 ++ frags_text fs) ts2 /\
              Forall (fun t => (N.of_nat (length (tok_text t) + k) <= m)%N) ts2).
    { rewrite call_eq in Ec by exact Hg. unfold call_rules in Ec.
      rewrite push_tl in Ec by exact Hcap. fold (loc lx) (buf lx) (lmax lx) in Ec.
      destruct (tl (loc lx) (buf lx ++ frag_text f)) as [l1 [[ts1 b1]| | |]] eqn:Et; try discriminate.
      apply tl_ok in Et as (Hs1 & Hst1).
      unfold lx_append in Ec. destruct (append_loop (lx_tokens lx) ts1). injection Ec as <- _.
      unfold good, loc, buf, lmax. cbn [lx_tk tk_loc tk_buf tk_max].
      split; [exact Hst1|]. split; [exact Hm|].
      pose proof (steps_app _ _ _ _ _ Hs1 (frags_text fs)) as Hs1'. rewrite <- app_assoc in Hs1'.
      destruct (lexes_steps_suffix _ _ _ _ _ Hs1' _ Hlex) as (ts2 & -> & Hlex2).
      apply Forall_app in Htok as (_ & Htok). exists ts2. auto. }
    destruct Hnext as (Hg1 & Hm1 & ts2 & Hlex2 & Htok2).
    destruct (IH lx1 ts2 Hg1 Hm1 Hmp Hlex2 Htok2 Hfr') as (E1 & E2).
    destruct (feed lx1 fs) as [lx2 r2]. destruct (feed (unlimit lx1) fs) as [lx3 r3].
    cbn [snd fst] in *. subst r3.
    destruct r2 as [rs2| | |]; cbn [snd fst]; (split; [reflexivity|]); intros rs Hrs; try discriminate.
    exact (E2 rs2 eq_refl).
Qed.

Lemma limit_irrelevant : forall name m k fs ts, (0 < m)%N ->
  lexes (loc_new name) (frags_text fs) ts ->
  Forall (fun t => (N.of_nat (length (tok_text t) + k) <= m)%N) ts ->
  Forall (fun f => length (frag_text f) <= k) fs ->
  lex_fragments name m fs = parse_str name (frags_text fs).
Proof.
  intros name m k fs ts Hm Hlex Htok Hfr.
  rewrite <- (frags_same_outcome name (frags_text fs) ts Hlex fs eq_refl).
  destruct (feed_limit k m fs (lx_new name m) ts (good_new _ _) eq_refl Hm Hlex Htok Hfr) as (E1 & E2).
  change (unlimit (lx_new name m)) with (lx_new name 0) in *.
  unfold lex_fragments.
  destruct (feed (lx_new name m) fs) as [lx2 r2]. destruct (feed (lx_new name 0) fs) as [lx3 r3].
  cbn [snd fst] in *. subst r3.
  destruct r2 as [rs| | |]; try reflexivity. cbn [bind]. rewrite (E2 rs eq_refl).
  destruct (lx_flush lx2) as [lx4 r4] eqn:E4. rewrite (unlimit_flush _ _ _ E4). reflexivity.
Qed.

(** ** The tokenizer alone *)
Lemma tk_feed_run : forall ss b l ts l' b', stuck l b ->
  steps l (b ++ concat ss) ts l' b' ->
  (forall t n, read_next l' b' false <> Ok (Some (t, n))) ->
  match read_next l' b' false with
  | Err e => snd (tk_feed (Tk 0 b l) ss) = Err e
  | _ => tk_feed (Tk 0 b l) ss = (Tk 0 b' l', Ok ts)
  end.
Proof.
  induction ss as [|s ss IH]; intros b l ts l' b' Hst Hs Hend.
  - cbn [concat] in Hs. rewrite app_nil_r in Hs.
    destruct (steps_det _ _ _ _ _ Hs Hend [] l b) as (-> & -> & ->).
    { constructor. } { intros t n. rewrite Hst. congruence. }
    rewrite Hst. reflexivity.
  - cbn [concat] in Hs. cbn [tk_feed].
    rewrite push_tl by (apply unlimited_capacity; reflexivity).
    cbn [tk_loc tk_buf tk_max]. rewrite app_assoc in Hs.
    destruct (tl_cases l (b ++ s)) as [(l1 & ts1 & b1 & Et)|(l1 & e & Et)]; rewrite Et.
    + apply tl_ok in Et as (Hs1 & Hst1).
      pose proof (steps_app _ _ _ _ _ Hs1 (concat ss)) as Hs1'.
      destruct (tl_steps l1 (b1 ++ concat ss)) as (ts2 & l2 & b2 & Hs2 & Hcase).
      assert (Hend2 : forall t n, read_next l2 b2 false <> Ok (Some (t, n))).
      { intros t n. destruct Hcase as [(H & _)|(e & H & _)]; rewrite H; congruence. }
      destruct (steps_det _ _ _ _ _ Hs Hend _ _ _ (steps_trans _ _ _ _ _ Hs1' _ _ _ Hs2) Hend2)
        as (-> & -> & ->). clear Hcase.
      specialize (IH b1 l1 ts2 l2 b2 Hst1 Hs2 Hend2).
      destruct (read_next l2 b2 false) as [| | |]; try (rewrite IH; reflexivity).
      destruct (tk_feed (Tk 0 b1 l1) ss) as [t3 r3]. cbn [snd] in IH. subst r3. reflexivity.
    + apply tl_err in Et as (ts1 & b1 & Hs1 & He).
      pose proof (steps_app _ _ _ _ _ Hs1 (concat ss)) as Hs1'.
      assert (He' : read_next l1 (b1 ++ concat ss) false = Err e).
      { rewrite read_next_stable by congruence. exact He. }
      destruct (steps_det _ _ _ _ _ Hs Hend _ _ _ Hs1' ltac:(congruence)) as (-> & -> & ->).
      rewrite He'. reflexivity.
Qed.

Lemma tokens_of_run : forall name ss ts l' b',
  steps (loc_new name) (concat ss) ts l' b' ->
  (forall t n, read_next l' b' false <> Ok (Some (t, n))) ->
  tokens_of name ss =
  match read_next l' b' false with
  | Err e => Err e
  | _ => let? ts2 := snd (tk_flush (Tk 0 b' l')) in Ok (ts ++ ts2)
  end.
Proof.
  intros name ss ts l' b' Hs Hend.
  pose proof (tk_feed_run ss [] (loc_new name) ts l' b' eq_refl Hs Hend) as H.
  unfold tokens_of, tk_new.
  destruct (read_next l' b' false) as [| | |].
  - rewrite H. cbn [bind]. destruct (tk_flush (Tk 0 b' l')). reflexivity.
  - destruct (tk_feed (Tk 0 [] (loc_new name)) ss) as [t r]. cbn [snd] in H. subst r. reflexivity.
  - rewrite H. cbn [bind]. destruct (tk_flush (Tk 0 b' l')). reflexivity.
  - rewrite H. cbn [bind]. destruct (tk_flush (Tk 0 b' l')). reflexivity.
Qed.

Lemma tokens_chunks : forall name ss1 ss2, concat ss1 = concat ss2 ->
  tokens_of name ss1 = tokens_of name ss2.
Proof.
  intros name ss1 ss2 E.
  destruct (tl_steps (loc_new name) (concat ss1)) as (ts & l' & b' & Hs & Hcase).
  assert (Hend : forall t n, read_next l' b' false <> Ok (Some (t, n))).
  { intros t n. destruct Hcase as [(H & _)|(e & H & _)]; rewrite H; congruence. }
  rewrite (tokens_of_run name ss1 ts l' b' Hs Hend).
  rewrite E in Hs. rewrite (tokens_of_run name ss2 ts l' b' Hs Hend). reflexivity.
Qed.

Lemma tokens_lexes : forall name ss ts,
  tokens_of name ss = Ok ts <-> lexes (loc_new name) (concat ss) ts.
Proof.
  intros name ss ts.
  destruct (tl_steps (loc_new name) (concat ss)) as (ts1 & l' & b' & Hs & Hcase).
  assert (Hend : forall t n, read_next l' b' false <> Ok (Some (t, n))).
  { intros t n. destruct Hcase as [(H & _)|(e & H & _)]; rewrite H; congruence. }
  rewrite (tokens_of_run name ss ts1 l' b' Hs Hend). rewrite lexes_steps.
  destruct Hcase as [(Hst & _)|(e & He & _)].
  - unfold stuck in Hst. rewrite Hst.
    rewrite (flushed_tail l' b' Hst). split.
    + destruct (flushed l' b') as [ts2|] eqn:Ef.
      * cbn [snd bind]. intros E. injection E as <-. exists ts1, l', b', ts2. auto.
      * cbn [snd]. destruct (read_next l' b' true); discriminate.
    + intros (ts1' & l1 & b1 & ts2 & Hs1 & Hst1 & Hf & ->).
      destruct (steps_det _ _ _ _ _ Hs Hend _ _ _ Hs1 ltac:(congruence)) as (-> & -> & ->).
      rewrite Hf. reflexivity.
  - rewrite He. split; [discriminate|].
    intros (ts1' & l1 & b1 & ts2 & Hs1 & Hst1 & Hf & ->).
    destruct (steps_det _ _ _ _ _ Hs Hend _ _ _ Hs1 ltac:(congruence)) as (-> & -> & ->).
    congruence.
Qed.

(** Tokens never panic. *)
Lemma tokens_no_panic : forall name ss,
  match tokens_of name ss with Panic _ | OutOfFuel => False | _ => True end.
Proof.
  intros name ss.
  destruct (tl_steps (loc_new name) (concat ss)) as (ts1 & l' & b' & Hs & Hcase).
  assert (Hend : forall t n, read_next l' b' false <> Ok (Some (t, n))).
  { intros t n. destruct Hcase as [(H & _)|(e & H & _)]; rewrite H; congruence. }
  rewrite (tokens_of_run name ss ts1 l' b' Hs Hend).
  destruct Hcase as [(Hst & _)|(e & He & _)]; [|rewrite He; exact I].
  unfold stuck in Hst. rewrite Hst. rewrite (flushed_tail l' b' Hst).
  destruct (flushed l' b') as [ts2|] eqn:Ef; [exact I|]. cbn [snd].
  unfold flushed in Ef. destruct b' as [|c r]; [discriminate|].
  pose proof (read_next_no_panic l' (c :: r) true) as Hp.
  destruct (read_next l' (c :: r) true) as [[[t n]|]|e|p|] eqn:E; try exact I; try (destruct Hp; fail);
    try discriminate.
  exact (flush_decides _ _ _ E).
Qed.

(** A successful parse comes from a lexically valid text: the rules are those of
    its token list. *)
Lemma parse_str_tokens : forall name s,
  match tokens_of name [s] with
  | Ok ts =>
      match append_loop [] ts with
      | (_, Ok rs) => parse_str name s = Ok rs
      | (_, Err e) => parse_str name s = Err e
      | (_, Panic p) => parse_str name s = Panic p
      | (_, OutOfFuel) => parse_str name s = OutOfFuel
      end
  | _ => is_ok (parse_str name s) = false
  end.
Proof.
  intros name s. pose proof (tokens_no_panic name [s]) as Hnp. revert Hnp.
  unfold tokens_of, parse_str, lx_push_str. cbn [tk_feed].
  change (lx_tk (lx_new name 0)) with (tk_new name 0).
  pose proof (good_new name 0) as Hg.
  destruct (tk_push_str (tk_new name 0) s) as [t [ts| | |]] eqn:Ep; intros Hnp; try (destruct Hnp; fail);
    try reflexivity.
  cbn [bind] in *. rewrite app_nil_r in *. cbn [lx_append].
  change (lx_tokens (lx_new name 0)) with (@nil token).
  assert (Hgt : stuck (tk_loc t) (tk_buf t) /\ tk_max t = 0%N).
  { rewrite push_tl in Ep by (apply unlimited_capacity; reflexivity).
    destruct (tl (tk_loc (tk_new name 0)) (tk_buf (tk_new name 0) ++ s)) as [l [[ts' rest]| | |]] eqn:Et;
      try discriminate.
    injection Ep as <- <-. apply tl_ok in Et. tauto. }
  destruct Hgt as (Hst & Hmx).
  destruct (tk_flush t) as [t2 [ts2|e2| |]] eqn:Ef; cbn [bind] in *; try (destruct Hnp; fail).
  - rewrite append_loop_app.
    destruct (append_loop [] ts) as [c [rs| | |]]; try reflexivity.
    unfold lx_flush. cbn [lx_tk]. rewrite Ef.
    destruct (append_loop c ts2) as [c2 r2] eqn:Ea.
    destruct r2 as [rs2|e|p|].
    + pose proof (flush_at_most_one (Lx t c) t2 (Ok ts2) (Lx t2 c2) rs2 Hst Ef) as Hone.
      unfold lx_append in Hone |- *. cbn [lx_tokens] in *. rewrite Ea in *.
      cbn [first_rule bind]. rewrite hd_short by (apply Hone; reflexivity). reflexivity.
    + unfold lx_append. cbn [lx_tokens]. rewrite Ea. reflexivity.
    + unfold lx_append. cbn [lx_tokens]. rewrite Ea. reflexivity.
    + unfold lx_append. cbn [lx_tokens]. rewrite Ea. reflexivity.
  - destruct (append_loop [] ts) as [c [rs| | |]]; try reflexivity.
    unfold lx_flush. cbn [lx_tk]. rewrite Ef. reflexivity.
Qed.

Lemma parse_str_ok : forall name s rs, parse_str name s = Ok rs <->
  exists ts c, lexes (loc_new name) s ts /\ append_loop [] ts = (c, Ok rs).
Proof.
  intros name s rs. pose proof (parse_str_tokens name s) as H.
  assert (L : forall ts, tokens_of name [s] = Ok ts <-> lexes (loc_new name) s ts).
  { intros ts. rewrite tokens_lexes. cbn [concat]. rewrite app_nil_r. reflexivity. }
  split.
  - intros E. rewrite E in H. destruct (tokens_of name [s]) as [ts| | |] eqn:Et; try discriminate.
    destruct (append_loop [] ts) as [c [rs0| | |]] eqn:Ea; try discriminate.
    injection H as ->. exists ts, c. split; [apply L; reflexivity|exact Ea].
  - intros (ts & c & Hl & Ea). apply L in Hl. rewrite Hl, Ea in H. exact H.
Qed.

(** ** Reachable states *)
Lemma reached_good : forall name max lx, reached name max lx ->
  good lx /\ existsb is_terminator (lx_tokens lx) = false.
Proof.
  intros name max lx H. induction H as [|lx f lx' rs H (IHg & IHt) Hc|lx lx' o H (IHg & IHt) Hf|hs].
  - split; reflexivity.
  - rewrite call_eq in Hc by exact IHg. unfold call_rules in Hc.
    destruct (over_capacity (lx_tk lx) (length (frag_text f))) eqn:Eo.
    { unfold tk_push_str in Hc. rewrite Eo in Hc. discriminate. }
    rewrite push_tl in Hc by exact Eo.
    destruct (tl (tk_loc (lx_tk lx)) (tk_buf (lx_tk lx) ++ frag_text f)) as [l [[ts b]| | |]] eqn:Et; try discriminate.
    apply tl_ok in Et as (_ & Hst). unfold lx_append in Hc.
    destruct (append_loop (lx_tokens lx) ts) as [c r] eqn:Ea. injection Hc as <- ->.
    split; [exact Hst|]. cbn [lx_tokens]. eapply append_loop_rest; eassumption.
  - unfold lx_flush in Hf. destruct (tk_flush (lx_tk lx)) as [tk r] eqn:E.
    unfold lx_append in Hf.
    destruct r as [new| | |]; try discriminate.
    destruct (append_loop (lx_tokens lx) new) as [c r] eqn:Ea.
    destruct r as [rs| | |]; try discriminate. injection Hf as <- _.
    split; [|cbn [lx_tokens]; eapply append_loop_rest; eassumption].
    unfold good, loc, buf. cbn [lx_tk].
    unfold tk_flush in E.
    destruct (read_next (tk_loc (lx_tk lx)) (tk_buf (lx_tk lx)) true) as [[[t n]|]|e|p|]; try discriminate;
      cbn [tk_buf tk_loc] in E.
    + destruct (skipn n (tk_buf (lx_tk lx))) eqn:Es; [|discriminate]. injection E as <- _. reflexivity.
    + destruct (skipn 0 (tk_buf (lx_tk lx))) eqn:Es; [|discriminate]. injection E as <- _. reflexivity.
  - split; reflexivity.
Qed.

Lemma push_complete : forall name max lx c lx' rs, reached name max lx ->
  lx_push_str lx [c] = (lx', Ok rs) ->
  length rs <= 1 /\ lx_push lx c = (lx', Ok (hd_error rs)).
Proof.
  intros name max lx c lx' rs Hr H. apply reached_good in Hr as (Hg & _).
  unfold lx_push_str in H. unfold lx_push, tk_push.
  destruct (tk_push_str (lx_tk lx) [c]) as [tk r] eqn:Ep. rewrite H.
  split; [|reflexivity]. eapply push_at_most_one; [exact Hg|exact Ep|exact H].
Qed.
Lemma flush_complete : forall name max lx tk ts c rs, reached name max lx ->
  tk_flush (lx_tk lx) = (tk, Ok ts) -> append_loop (lx_tokens lx) ts = (c, Ok rs) ->
  length rs <= 1 /\ lx_flush lx = (Lx tk c, Ok (hd_error rs)).
Proof.
  intros name max lx tk ts c rs Hr Hf Ha. apply reached_good in Hr as (Hg & _).
  unfold lx_flush. rewrite Hf. unfold lx_append. rewrite Ha. split; [|reflexivity].
  eapply (flush_at_most_one lx tk (Ok ts)); [exact Hg|exact Hf|].
  unfold lx_append. rewrite Ha. reflexivity.
Qed.
Lemma frags_two_outcomes : forall name s, exists o1 o2, forall fs, frags_text fs = s ->
  lex_fragments name 0 fs = o1 \/ lex_fragments name 0 fs = o2.
Proof. intros name s. destruct (frags_outcome name s) as (o1 & o2 & H & _). eauto. Qed.
