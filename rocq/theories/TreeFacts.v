(** Well-formedness of the trees read, and irrelevance of trivia. *)
From Coq Require Import String List NArith Arith Bool Lia.
From Verif Require Import Base Ident Tokenizer Ast Lex SpecText TextFacts SpecTok TokFacts TokRun
  SpecLex LexRun SpecGram GramFacts GramText SpecTree.
Import ListNotations.
Open Scope nat_scope.

(** ** Names *)
Lemma word_text : forall x, word x -> x <> [] /\ Forall (fun c => ~ gap_char c) x.
Proof.
  intros x (c & r & -> & Hc & HF). split; [discriminate|]. constructor.
  - apply wordish_not_gap. left. exact Hc.
  - eapply Forall_impl; [|exact HF]. intros a Ha. apply wordish_not_gap. exact Ha.
Qed.
Lemma words_skip_gaps : forall g s ws, Forall gap_char g -> words_of (g ++ s) ws -> words_of s ws.
Proof.
  induction g as [|c g IH]; intros s ws Hg H; [exact H|]. inversion Hg; subst.
  cbn [app] in H. apply words_inv in H as [(_ & H)|(Hn & _)]; [auto|contradiction].
Qed.
Lemma words_head : forall x s ws, word x -> (s = [] \/ exists c s', s = c :: s' /\ gap_char c) ->
  words_of (x ++ s) ws -> exists ws', ws = x :: ws' /\ words_of s ws'.
Proof.
  intros x s ws Hx Hs H. destruct (word_text x Hx) as (Hne & Hg).
  destruct x as [|c x]; [congruence|]. cbn [app] in H. apply words_inv in H as [(Hc & _)|(_ & w & t & ws' & E & -> & Hw & HF & Ht & H)].
  - inversion Hg; contradiction.
  - change (c :: x ++ s) with ((c :: x) ++ s) in E.
    destruct (span_unique _ _ _ _ _ Hg HF Hs Ht E) as (-> & ->). eauto.
Qed.
Lemma run_words : forall w x ws, x = [] \/ word x -> Forall word_or_gap w -> Forall valid_tok w ->
  words_of (x ++ flat_map tok_text w) ws -> Forall word ws.
Proof.
  induction w as [|t w IH]; intros x ws Hx Hw Hv H; cbn [flat_map] in H.
  - rewrite app_nil_r in H. destruct Hx as [->|Hx].
    + apply words_inv in H. subst. constructor.
    + rewrite <- (app_nil_r x) in H. apply words_head in H as (ws' & -> & H); auto.
      apply words_inv in H. subst. constructor; auto.
  - inversion Hw; subst. inversion Hv; subst. destruct t; try contradiction.
    + cbn [tok_text] in H. rewrite app_assoc in H. eapply IH; [|assumption|assumption|exact H]. right.
      destruct Hx as [->|(c & r & -> & Hc & HF)]; [assumption|].
      destruct H4 as (c' & r' & -> & Hc' & HF'). exists c, (r ++ c' :: r'). split; [reflexivity|]. split; [exact Hc|].
      apply Forall_app. split; [exact HF|]. constructor; auto.
    + cbn [tok_text] in H. destruct H4 as (Hne & Hg).
      assert (K : forall ws, words_of (s ++ flat_map tok_text w) ws -> Forall word ws).
      { intros ws0 H0. apply words_skip_gaps in H0; [|exact Hg]. apply (IH [] ws0); auto. }
      destruct Hx as [->|Hx]; [apply K; exact H|].
      apply words_head in H as (ws' & -> & H); auto.
      destruct s as [|c s]; [congruence|]. right. exists c, (s ++ flat_map tok_text w). inversion Hg; auto.
Qed.
Lemma ident_name : forall w l id, g_ident w l id -> Forall valid_tok w -> name_ok id.
Proof.
  intros w l id H Hv. assert (Hne : id <> []) by (eapply g_ident_name; [exact H|apply valid_vt; exact Hv]).
  destruct H as [l s w ws HW HL Hws]. exists ws.
  assert (HF : Forall word ws).
  { apply (run_words (TMeta l s :: w) []); auto. constructor; [exact I|exact HW]. }
  split; [intros ->; apply Hne; reflexivity|auto].
Qed.

(** ** Well-formed trees *)
Lemma derived_wf :
  (forall w p, g_primary w p -> Forall valid_tok w -> wf_primary p) /\
  (forall w f, g_factor w f -> Forall valid_tok w -> wf_factor f) /\
  (forall w t, g_term w t -> Forall valid_tok w -> wf_term t) /\
  (forall w s, g_single w s -> Forall valid_tok w -> wf_single s) /\
  (forall w d, g_defs w d -> Forall valid_tok w -> wf_defs d).
Proof.
  assert (Hin : forall a (w : list token) b, Forall valid_tok (a :: w ++ [b]) -> Forall valid_tok w).
  { intros a w b H. inversion H; subst. apply Forall_app in H3. tauto. }
  apply g_all_mut.
  - intros l s w d l' s' _ IH Hv. constructor. eauto.
  - intros l s w d l' s' _ IH Hv. constructor. eauto.
  - intros l w d l' _ IH Hv. constructor. eauto.
  - intros w l id H Hv. constructor. eapply ident_name; eassumption.
  - intros l s q Hv. inversion Hv; subst. destruct H1 as (Hq & Hne & HF & Hn). constructor; auto.
    intros (H1 & H3). destruct Hq as [->| ->]; auto.
  - intros l s Hv. inversion Hv; subst. constructor. exact H1.
  - intros l _. constructor.
  - intros tr1 w tr2 p _ _ IH _ Hv. constructor; [lia|]. apply IH.
    apply Forall_app in Hv as (_ & Hv). apply Forall_app in Hv. tauto.
  - intros tr1 l s tr2 l' tr3 w tr4 p _ _ _ _ Hle _ IH Hv. constructor; [exact Hle|]. apply IH.
    apply Forall_app in Hv as (_ & Hv). inversion Hv; subst. apply Forall_app in H2 as (_ & Hv2). inversion Hv2; subst.
    apply Forall_app in H3 as (_ & H3). apply Forall_app in H3. tauto.
  - intros w f _ IH Hv. constructor. auto.
  - intros w f l w' e _ IH _ IH' Hv. apply Forall_app in Hv as (H1 & H2). inversion H2; subst. constructor; auto.
  - intros w t _ IH Hv. constructor. auto.
  - intros w f l w' e _ IH _ IH' Hv. apply Forall_app in Hv as (H1 & H2). inversion H2; subst. constructor; auto.
  - intros w t _ IH Hv. constructor. auto.
  - intros w f l c w' e _ IH _ IH' Hv. apply Forall_app in Hv as (H1 & H2). inversion H2; subst. constructor; auto.
Qed.

Definition tok_or_eof (t : token) : Prop := valid_tok t \/ exists l, t = TEOF l.
Lemma tok_or_eof_valid : forall w, Forall tok_or_eof w -> existsb is_terminator w = false -> Forall valid_tok w.
Proof.
  intros w H. induction H as [|t w Ht _ IH]; intros E; constructor; cbn in E; apply orb_false_iff in E as (E1 & E2); auto.
  destruct Ht as [Ht|(l & ->)]; [exact Ht|discriminate].
Qed.
Lemma run_wf : forall w o, g_run w o -> Forall tok_or_eof w -> forall r, o = Some r -> wf_rule r.
Proof.
  intros w o H Hv r E. destruct H as [tr1 w l id tr2 l' body d t H1 Hid H2 Hd Ht|tr t Htr Ht]; [|discriminate].
  injection E as <-. apply Forall_app in Hv as (_ & Hv). apply Forall_app in Hv as (Hw & Hv).
  apply Forall_app in Hv as (_ & Hv). inversion Hv; subst. apply Forall_app in H4 as (Hb & _).
  split; cbn [r_id r_defs].
  - eapply ident_name; [exact Hid|]. apply tok_or_eof_valid; [exact Hw|]. eapply g_ident_no_term; exact Hid.
  - eapply derived_wf; [exact Hd|]. apply tok_or_eof_valid; [exact Hb|]. eapply g_defs_no_term; exact Hd.
Qed.
Lemma syntax_wf : forall ts rs, g_syntax ts rs -> Forall tok_or_eof ts -> Forall wf_rule rs.
Proof.
  intros ts rs H. induction H as [|w o ts rs Hr _ IH]; intros Hv; [constructor|].
  apply Forall_app in Hv as (H1 & H2). apply Forall_app. split; [|auto].
  destruct o as [r|]; constructor; [|constructor]. eapply run_wf; [exact Hr|exact H1|reflexivity].
Qed.
Lemma parse_wf : forall name s rs, parse_str name s = Ok rs -> Forall wf_rule rs.
Proof.
  intros name s rs H. apply parse_sound in H as (ts & Hl & Hg). eapply syntax_wf; [exact Hg|].
  apply lexes_shape in Hl as (ts0 & l & -> & HF). apply Forall_app. split.
  - eapply Forall_impl; [|exact HF]. intros t Ht. left. exact Ht.
  - constructor; [right; eauto|constructor].
Qed.

(** ** Symbols *)
Definition gapt (t : token) : Prop := exists l s, t = TGap l s.
Lemma word_done_prefix : forall a b, word_done (a ++ b) -> word_done a.
Proof. intros a b H g l s r Hg E. apply (H g l s (r ++ b) Hg). rewrite E, <- app_assoc. reflexivity. Qed.
Lemma word_done_more : forall a t b, word_done a -> symbol_of t <> None -> word_done (a ++ t :: b).
Proof.
  intros a t b H Ht g l s r Hg E.
  assert (K : forall a g, Forall gapt g -> a ++ t :: b = g ++ TMeta l s :: r -> exists r', a = g ++ TMeta l s :: r').
  { clear - Ht. induction a as [|x a IH]; intros g Hg E.
    - exfalso. destruct g as [|y g]; cbn in E; injection E as -> E.
      + apply Ht. reflexivity.
      + inversion Hg; subst. destruct H1 as (? & ? & ->). apply Ht. reflexivity.
    - destruct g as [|y g]; cbn in E; injection E as -> E.
      + exists a. reflexivity.
      + inversion Hg; subst. destruct (IH g H2 E) as (r' & ->). exists r'. reflexivity. }
  destruct (K a g Hg E) as (r' & ->). exact (H g l s r' Hg eq_refl).
Qed.
Lemma symbol_not_trivia : forall t x, symbol_of t = Some x -> ~ trivia t /\ ~ word_or_gap t /\ (forall id, x <> SId id).
Proof. intros [] x H; cbn in *; try discriminate; injection H as <-; repeat split; auto; discriminate. Qed.
Lemma ident_wg : forall w l id, g_ident w l id -> Forall word_or_gap w.
Proof. intros w l id []. constructor; [exact I|assumption]. Qed.

(** A run of tokens split at a symbol. *)
Lemma symbols_split : forall a t x b ss, symbols (a ++ t :: b) ss -> symbol_of t = Some x ->
  exists A B, ss = A ++ x :: B /\ symbols a A /\ symbols b B.
Proof.
  intros a t x b ss H Ht. remember (a ++ t :: b) as ts eqn:E. revert a E.
  induction H as [|u ts ss Hu H IH|w l id rest ss Hid Hd H IH|u y ts ss Hu H IH]; intros a E.
  - destruct a; discriminate.
  - destruct a as [|v a]; cbn in E; injection E as -> ->.
    + exfalso. apply symbol_not_trivia in Ht. tauto.
    + destruct (IH a eq_refl) as (A & B & -> & HA & HB). exists A, B. split; [reflexivity|]. split; [constructor; assumption|exact HB].
  - assert (Hpre : exists a', a = w ++ a' /\ rest = a' ++ t :: b).
    { apply ident_wg in Hid. clear - E Hid Ht. revert a E. induction w as [|y w IH]; intros a E; [exists a; auto|].
      inversion Hid; subst. destruct a as [|v a]; cbn in E; injection E as -> E.
      - exfalso. apply symbol_not_trivia in Ht. tauto.
      - destruct (IH H2 a E) as (a' & -> & ->). exists a'. auto. }
    destruct Hpre as (a' & -> & ->). destruct (IH a' eq_refl) as (A & B & -> & HA & HB).
    exists (SId id :: A), B. split; [reflexivity|]. split; [|exact HB].
    econstructor; [exact Hid| |exact HA]. eapply word_done_prefix. exact Hd.
  - destruct a as [|v a]; cbn in E; injection E as -> ->.
    + rewrite Hu in Ht. injection Ht as ->. exists [], ss. split; [reflexivity|]. split; [constructor|exact H].
    + destruct (IH a eq_refl) as (A & B & -> & HA & HB). exists (y :: A), B. split; [reflexivity|]. split; [|exact HB].
      apply sy_symbol; assumption.
Qed.
(** A list of symbols split at a symbol other than an identifier. *)
Lemma symbols_find : forall ts A x B, symbols ts (A ++ x :: B) -> (forall id, x <> SId id) ->
  exists a t b, ts = a ++ t :: b /\ symbol_of t = Some x /\ symbols a A /\ symbols b B.
Proof.
  intros ts A x B H Hx. remember (A ++ x :: B) as ss eqn:E. revert A E.
  induction H as [|u ts ss Hu H IH|w l id rest ss Hid Hd H IH|u y ts ss Hu H IH]; intros A E.
  - destruct A; discriminate.
  - destruct (IH A E) as (a & t & b & -> & Ht & HA & HB). exists (u :: a), t, b.
    split; [reflexivity|]. split; [exact Ht|]. split; [constructor; assumption|exact HB].
  - destruct A as [|y A]; cbn in E; injection E as E1 E.
    + exfalso. apply (Hx id). congruence.
    + subst y. destruct (IH A E) as (a & t & b & -> & Ht & HA & HB). exists (w ++ a), t, b.
      split; [rewrite <- app_assoc; reflexivity|]. split; [exact Ht|]. split; [|exact HB].
      econstructor; [exact Hid| |exact HA]. eapply word_done_prefix. exact Hd.
  - destruct A as [|z A]; cbn in E; injection E as -> E.
    + subst ss. exists [], u, ts. split; [reflexivity|]. split; [exact Hu|]. split; [constructor|exact H].
    + destruct (IH A E) as (a & t & b & -> & Ht & HA & HB). exists (u :: a), t, b.
      split; [reflexivity|]. split; [exact Ht|]. split; [apply sy_symbol; assumption|exact HB].
Qed.
Lemma symbols_none : forall ts, symbols ts [] -> all_trivia ts.
Proof.
  intros ts H. remember [] as ss eqn:E. induction H; try discriminate; constructor; auto.
  apply IHsymbols. exact E.
Qed.
Lemma trivia_symbols : forall ts ss, all_trivia ts -> symbols ts ss -> ss = [].
Proof.
  intros ts ss Ht H. induction H as [|u ts ss Hu H IH|w l id rest ss Hid Hd H IH|u y ts ss Hu H IH]; auto.
  - inversion Ht; auto.
  - exfalso. destruct Hid. inversion Ht; subst. assumption.
  - exfalso. inversion Ht; subst. apply symbol_not_trivia in Hu. tauto.
Qed.
Lemma symbols_one_id : forall ts id, symbols ts [SId id] ->
  exists a w l b, ts = a ++ w ++ b /\ all_trivia a /\ g_ident w l id /\ all_trivia b.
Proof.
  intros ts id H. remember [SId id] as ss eqn:E.
  induction H as [|u ts ss Hu H IH|w l id' rest ss Hid Hd H IH|u y ts ss Hu H IH]; try discriminate.
  - destruct (IH E) as (a & w & l & b & -> & Ha & Hid & Hb). exists (u :: a), w, l, b.
    split; [reflexivity|]. split; [constructor; assumption|auto].
  - injection E as -> ->. exists [], w, l, rest. split; [reflexivity|]. split; [constructor|].
    split; [exact Hid|]. apply symbols_none. exact H.
  - injection E as -> ->. apply symbol_not_trivia in Hu. exfalso. apply (proj2 (proj2 Hu) id). reflexivity.
Qed.
Lemma ident_symbols : forall a w b l id ss, all_trivia a -> g_ident w l id -> all_trivia b ->
  symbols (a ++ w ++ b) ss -> ss = [SId id].
Proof.
  intros a w b l id ss Ha Hid Hb. induction Ha as [|x a Hx Ha IH].
  - cbn [app]. intros H. destruct Hid as [l s w ws HW HL Hws].
    assert (HM : forall r ss', symbols (TMeta l s :: r) ss' -> exists w' l' id' rest ss0,
       TMeta l s :: r = w' ++ rest /\ g_ident w' l' id' /\ word_done rest /\ symbols rest ss0 /\ ss' = SId id' :: ss0).
    { intros r ss' H0. inversion H0; subst; try contradiction; try discriminate. eexists _, _, _, _, _. eauto. }
    destruct (HM _ _ H) as (w' & l' & id' & rest & ss0 & E & Hid' & Hd & Hr & ->).
    destruct Hid' as [l' s' w' ws' HW' HL' Hws']. cbn [app] in E. injection E as <- <- E.
    (* the two runs are the same *)
    assert (K : forall w b w' rest, w ++ b = w' ++ rest -> Forall word_or_gap w -> Forall word_or_gap w' ->
       (w = [] \/ exists v l' s', w = v ++ [TMeta l' s']) -> (w' = [] \/ exists v l' s', w' = v ++ [TMeta l' s']) ->
       all_trivia b -> word_done rest -> w = w').
    { clear. intros w b w' rest E HW HW' HL HL' Hb Hd.
      apply app_eq_app in E as (x & [(E1 & E2)|(E1 & E2)]).
      - (* w = w' ++ x, rest = x ++ b *)
        destruct x as [|y x]; [rewrite app_nil_r in E1; exact E1|]. exfalso.
        assert (HL2 : exists v l' s', y :: x = v ++ [TMeta l' s']).
        { destruct (exists_last (l:=y :: x) ltac:(discriminate)) as (v & z & Ez).
          destruct HL as [->|(v0 & l0 & s0 & ->)]; [destruct w'; discriminate|].
          rewrite Ez, app_assoc in E1. apply app_inj_tail in E1 as (_ & <-). rewrite Ez. eauto. }
        destruct HL2 as (v & l0 & s0 & Ev). rewrite E1 in HW. apply Forall_app in HW as (_ & HW). rewrite Ev in *.
        assert (forall v, Forall word_or_gap v -> exists g l s r, Forall gapt g /\ v ++ [TMeta l0 s0] = g ++ TMeta l s :: r) as G.
        { clear. induction v as [|y v IH]; intros H; [exists [], l0, s0, []; auto|].
          inversion H; subst. destruct y; try contradiction.
          - exists [], l, s, (v ++ [TMeta l0 s0]). auto.
          - destruct (IH H3) as (g & l1 & s1 & r & Hg & E). exists (TGap l s :: g), l1, s1, r. cbn. rewrite E.
            split; [constructor; [exists l, s; reflexivity|exact Hg]|reflexivity]. }
        apply Forall_app in HW as (HW & _). destruct (G v HW) as (g & l1 & s1 & r & Hg & EG).
        apply (Hd g l1 s1 (r ++ b) Hg). rewrite E2, EG, <- app_assoc. reflexivity.
      - (* w' = w ++ x, b = x ++ rest *)
        destruct x as [|y x]; [rewrite app_nil_r in E1; congruence|]. exfalso.
        rewrite E2 in Hb. apply Forall_app in Hb as (Hb & _).
        destruct (exists_last (l:=y :: x) ltac:(discriminate)) as (v & z & Ez).
        destruct HL' as [->|(v0 & l0 & s0 & ->)]; [destruct w; discriminate|].
        rewrite Ez in *. rewrite app_assoc in E1. apply app_inj_tail in E1 as (_ & <-).
        apply Forall_app in Hb as (_ & Hb). inversion Hb; contradiction. }
    pose proof (K _ _ _ _ E HW HW' HL HL' Hb Hd) as ->. apply app_inv_head in E. subst rest.
    rewrite (trivia_symbols _ _ Hb Hr). rewrite (words_unique _ _ Hws _ Hws'). reflexivity.
  - intros H. cbn [app] in H. remember (x :: a ++ w ++ b) as ts eqn:E.
    destruct H as [|u ts ss Hu H|w' l' id' rest ss Hid' Hd H|u y ts ss Hu H]; try discriminate.
    + injection E as -> ->. auto.
    + exfalso. destruct Hid'. cbn [app] in E. injection E as <- _. contradiction.
    + exfalso. injection E as -> ->. apply symbol_not_trivia in Hu. tauto.
Qed.

Notation np := (reloc_primary nowhere nowhere).
Notation nf := (reloc_factor nowhere nowhere).
Notation nt := (reloc_term nowhere nowhere).
Notation ns := (reloc_single nowhere nowhere).
Notation nd := (reloc_defs nowhere nowhere).

Lemma transport_all :
  (forall w p, g_primary w p -> forall tr1 tr2 ss ts2, all_trivia tr1 -> all_trivia tr2 ->
     symbols (tr1 ++ w ++ tr2) ss -> symbols ts2 ss ->
     exists a w2 b p2, ts2 = a ++ w2 ++ b /\ all_trivia a /\ all_trivia b /\ g_primary w2 p2 /\ np p2 = np p) /\
  (forall w x, g_factor w x -> forall ss ts2, symbols w ss -> symbols ts2 ss ->
     exists x2, g_factor ts2 x2 /\ nf x2 = nf x) /\
  (forall w x, g_term w x -> forall ss ts2, symbols w ss -> symbols ts2 ss ->
     exists x2, g_term ts2 x2 /\ nt x2 = nt x) /\
  (forall w x, g_single w x -> forall ss ts2, symbols w ss -> symbols ts2 ss ->
     exists x2, g_single ts2 x2 /\ ns x2 = ns x) /\
  (forall w x, g_defs w x -> forall ss ts2, symbols w ss -> symbols ts2 ss ->
     exists x2, g_defs ts2 x2 /\ nd x2 = nd x).
Proof.
  assert (Henc : forall open close so sc w tr1 tr2 ss ts2 (P : list token -> Prop),
    symbol_of open = Some so -> symbol_of close = Some sc -> (forall id, so <> SId id) -> (forall id, sc <> SId id) ->
    all_trivia tr1 -> all_trivia tr2 ->
    symbols (tr1 ++ (open :: w ++ [close]) ++ tr2) ss -> symbols ts2 ss ->
    (forall C body, symbols w C -> symbols body C -> P body) ->
    exists a open' body close' b, ts2 = a ++ (open' :: body ++ [close']) ++ b /\ all_trivia a /\ all_trivia b /\
      symbol_of open' = Some so /\ symbol_of close' = Some sc /\ P body).
  { intros open close so sc w tr1 tr2 ss ts2 P Ho Hc Hso Hsc H1 H2 Hs Hs2 HP.
    cbn [app] in Hs. apply (symbols_split _ _ so) in Hs as (A & B & -> & HA & HB); [|exact Ho].
    rewrite <- app_assoc in HB. cbn [app] in HB.
    apply (symbols_split _ _ sc) in HB as (C & D & -> & HC & HD); [|exact Hc].
    apply trivia_symbols in HA; [|exact H1]. apply trivia_symbols in HD; [|exact H2]. subst A D.
    apply symbols_find in Hs2 as (a & t & b & -> & Ht & Ha & Hb); [|exact Hso].
    apply symbols_find in Hb as (body & t' & b' & -> & Ht' & Hbody & Hb'); [|exact Hsc].
    apply symbols_none in Ha, Hb'. exists a, t, body, t', b'. cbn [app].
    split; [rewrite <- app_assoc; reflexivity|]. repeat split; eauto. }
  apply g_all_mut.
  - intros l s w d l' s' Hg IH tr1 tr2 ss ts2 H1 H2 Hs Hs2.
    destruct (Henc (TStartOption l s) (TEndOption l' s') SOpenOption SCloseOption w tr1 tr2 ss ts2 (fun body => exists d2, g_defs body d2 /\ nd d2 = nd d))
      as (a & o & body & c & b & -> & Ha & Hb & Ho & Hc & d2 & Hd2 & Ed); eauto; try discriminate; try reflexivity.
    destruct o; try discriminate. destruct c; try discriminate.
    eexists a, _, b, _. split; [reflexivity|]. split; [exact Ha|]. split; [exact Hb|].
    split; [apply g_optional; exact Hd2|]. cbn. f_equal. exact Ed.
  - intros l s w d l' s' Hg IH tr1 tr2 ss ts2 H1 H2 Hs Hs2.
    destruct (Henc (TStartRepeat l s) (TEndRepeat l' s') SOpenRepeat SCloseRepeat w tr1 tr2 ss ts2 (fun body => exists d2, g_defs body d2 /\ nd d2 = nd d))
      as (a & o & body & c & b & -> & Ha & Hb & Ho & Hc & d2 & Hd2 & Ed); eauto; try discriminate; try reflexivity.
    destruct o; try discriminate. destruct c; try discriminate.
    eexists a, _, b, _. split; [reflexivity|]. split; [exact Ha|]. split; [exact Hb|].
    split; [apply g_repeated; exact Hd2|]. cbn. f_equal. exact Ed.
  - intros l w d l' Hg IH tr1 tr2 ss ts2 H1 H2 Hs Hs2.
    destruct (Henc (TStartGroup l) (TEndGroup l') SOpenGroup SCloseGroup w tr1 tr2 ss ts2 (fun body => exists d2, g_defs body d2 /\ nd d2 = nd d))
      as (a & o & body & c & b & -> & Ha & Hb & Ho & Hc & d2 & Hd2 & Ed); eauto; try discriminate; try reflexivity.
    destruct o; try discriminate. destruct c; try discriminate.
    eexists a, _, b, _. split; [reflexivity|]. split; [exact Ha|]. split; [exact Hb|].
    split; [apply g_grouped; exact Hd2|]. cbn. f_equal. exact Ed.
  - intros w l id Hid tr1 tr2 ss ts2 H1 H2 Hs Hs2.
    rewrite (ident_symbols _ _ _ _ _ _ H1 Hid H2 Hs) in Hs2.
    apply symbols_one_id in Hs2 as (a & w2 & l2 & b & -> & Ha & Hid2 & Hb).
    exists a, w2, b, (PMeta l2 id). repeat split; auto. constructor. exact Hid2.
  - intros l s q tr1 tr2 ss ts2 H1 H2 Hs Hs2. cbn [app] in Hs.
    apply (symbols_split _ _ (STerminal s)) in Hs as (A & B & -> & HA & HB); [|reflexivity].
    apply trivia_symbols in HA; [|exact H1]. apply trivia_symbols in HB; [|exact H2]. subst A B.
    apply symbols_find in Hs2 as (a & t & b & -> & Ht & Ha & Hb); [|discriminate].
    destruct t; try discriminate. injection Ht as ->. apply symbols_none in Ha, Hb.
    exists a, [TTerminal l0 s q0], b, (PTerminal l0 s). repeat split; auto. constructor.
  - intros l s tr1 tr2 ss ts2 H1 H2 Hs Hs2. cbn [app] in Hs.
    apply (symbols_split _ _ (SSpecial s)) in Hs as (A & B & -> & HA & HB); [|reflexivity].
    apply trivia_symbols in HA; [|exact H1]. apply trivia_symbols in HB; [|exact H2]. subst A B.
    apply symbols_find in Hs2 as (a & t & b & -> & Ht & Ha & Hb); [|discriminate].
    destruct t; try discriminate. injection Ht as ->. apply symbols_none in Ha, Hb.
    exists a, [TSpecial l0 s], b, (PSpecial l0 s). repeat split; auto. constructor.
  - intros l tr1 tr2 ss ts2 H1 H2 Hs Hs2. cbn [app] in Hs.
    apply trivia_symbols in Hs; [|apply Forall_app; auto]. subst ss. apply symbols_none in Hs2.
    exists [], [], ts2, (PEmpty l). repeat split; auto; constructor.
  - intros tr1 w tr2 p H1 Hg IH H2 ss ts2 Hs Hs2.
    destruct (IH _ _ _ _ H1 H2 Hs Hs2) as (a & w2 & b & p2 & -> & Ha & Hb & Hg2 & E).
    exists (Factor 1 p2). split; [constructor; assumption|]. unfold reloc_factor. cbn. rewrite E. reflexivity.
  - intros tr1 l s tr2 l' tr3 w tr4 p H1 H2 H3 H4 Hle Hg IH ss ts2 Hs Hs2.
    apply (symbols_split _ _ (SInteger (numeral s))) in Hs as (A & B & -> & HA & HB); [|reflexivity].
    apply (symbols_split _ _ STimes) in HB as (C & D & -> & HC & HD); [|reflexivity].
    apply trivia_symbols in HA; [|exact H1]. apply trivia_symbols in HC; [|exact H2]. subst A C.
    apply symbols_find in Hs2 as (a & t & b & -> & Ht & Ha & Hb); [|discriminate].
    apply symbols_find in Hb as (a2 & t2 & b2 & -> & Ht2 & Ha2 & Hb2); [|discriminate].
    destruct (IH _ _ _ _ H3 H4 HD Hb2) as (a3 & w2 & b3 & p2 & -> & Ha3 & Hb3 & Hg2 & E).
    destruct t; try discriminate. destruct t2; try discriminate. injection Ht as En. apply symbols_none in Ha, Ha2.
    exists (Factor (numeral s0) p2). split; [constructor; auto; rewrite En; exact Hle|].
    unfold reloc_factor. cbn. rewrite E, En. reflexivity.
  - intros w f Hg IH ss ts2 Hs Hs2. destruct (IH _ _ Hs Hs2) as (x2 & Hg2 & E).
    exists (Term x2 None). split; [constructor; exact Hg2|]. unfold reloc_term. cbn [t_factor t_exc]. rewrite E. reflexivity.
  - intros w f l w' e Hg IH Hg' IH' ss ts2 Hs Hs2.
    apply (symbols_split _ _ SExcept) in Hs as (A & B & -> & HA & HB); [|reflexivity].
    apply symbols_find in Hs2 as (a & t & b & -> & Ht & Ha & Hb); [|discriminate]. destruct t; try discriminate.
    destruct (IH _ _ HA Ha) as (x2 & Hg2 & E). destruct (IH' _ _ HB Hb) as (e2 & Hg2' & E').
    exists (Term x2 (Some e2)). split; [constructor; assumption|]. unfold reloc_term. cbn [t_factor t_exc option_map]. rewrite E, E'. reflexivity.
  - intros w f Hg IH ss ts2 Hs Hs2. destruct (IH _ _ Hs Hs2) as (x2 & Hg2 & E).
    exists [x2]. split; [constructor; exact Hg2|]. unfold reloc_single. cbn [map]. rewrite E. reflexivity.
  - intros w f l w' e Hg IH Hg' IH' ss ts2 Hs Hs2.
    apply (symbols_split _ _ SConcat) in Hs as (A & B & -> & HA & HB); [|reflexivity].
    apply symbols_find in Hs2 as (a & t & b & -> & Ht & Ha & Hb); [|discriminate]. destruct t; try discriminate.
    destruct (IH _ _ HA Ha) as (x2 & Hg2 & E). destruct (IH' _ _ HB Hb) as (e2 & Hg2' & E').
    exists (x2 :: e2). split; [constructor; assumption|]. unfold reloc_single in *. cbn [map]. rewrite E, E'. reflexivity.
  - intros w f Hg IH ss ts2 Hs Hs2. destruct (IH _ _ Hs Hs2) as (x2 & Hg2 & E).
    exists [x2]. split; [constructor; exact Hg2|]. unfold reloc_defs. cbn [map]. rewrite E. reflexivity.
  - intros w f l c w' e Hg IH Hg' IH' ss ts2 Hs Hs2.
    apply (symbols_split _ _ SDefSep) in Hs as (A & B & -> & HA & HB); [|reflexivity].
    apply symbols_find in Hs2 as (a & t & b & -> & Ht & Ha & Hb); [|discriminate]. destruct t; try discriminate.
    destruct (IH _ _ HA Ha) as (x2 & Hg2 & E). destruct (IH' _ _ HB Hb) as (e2 & Hg2' & E').
    exists (x2 :: e2). split; [constructor; assumption|]. unfold reloc_defs in *. cbn [map]. rewrite E, E'. reflexivity.
Qed.

Lemma term_symbol : forall t, symbol_of t = Some STerm -> terminator t.
Proof. intros [] H; try discriminate; exact I. Qed.
Lemma term_symbol' : forall t, terminator t -> symbol_of t = Some STerm.
Proof. intros [] H; try destruct H; reflexivity. Qed.

Lemma transport_syntax : forall ts rs, g_syntax ts rs -> forall ss ts2, symbols ts ss -> symbols ts2 ss ->
  (exists ts0 l, ts2 = ts0 ++ [TEOF l]) \/ ts2 = [] ->
  exists rs2, g_syntax ts2 rs2 /\ Forall2 eq_but_loc rs2 rs.
Proof.
  intros ts rs H. induction H as [|w o ts rs Hr _ IH]; intros ss ts2 Hs Hs2 Hend.
  - inversion Hs; subst.
    + apply symbols_none in Hs2. exists []. split; [|constructor].
      destruct Hend as [(ts0 & l & ->)| ->]; [|constructor].
      exfalso. apply Forall_app in Hs2 as (_ & Hs2). inversion Hs2; contradiction.
    + exfalso. destruct H0. discriminate.
  - assert (Hmore : forall b, (exists ts0 l, ts2 = ts0 ++ [TEOF l]) \/ ts2 = [] -> forall a t, ts2 = a ++ t :: b ->
                      (exists ts0 l, b = ts0 ++ [TEOF l]) \/ b = []).
    { clear. intros b Hend a t E. destruct Hend as [(ts0 & l & ->)| ->]; [|destruct a; discriminate].
      destruct b as [|y b]; [right; reflexivity|]. left.
      destruct (exists_last (l:=y :: b) ltac:(discriminate)) as (v & z & Ez). rewrite Ez in E |- *.
      rewrite app_comm_cons, app_assoc in E. apply app_inj_tail in E as (_ & <-). eauto. }
    destruct Hr as [tr1 w l id tr2 l' body d t H1 Hid H2 Hd Ht|tr t Htr Ht].
    + rewrite <- !app_assoc in Hs. cbn [app] in Hs. rewrite <- app_assoc in Hs. cbn [app] in Hs.
      replace (tr1 ++ w ++ tr2 ++ TDefining l' :: body ++ t :: ts)
        with ((tr1 ++ w ++ tr2) ++ TDefining l' :: body ++ t :: ts) in Hs by (rewrite <- !app_assoc; reflexivity).
      apply (symbols_split _ _ SDefining) in Hs as (A & B & -> & HA & HB); [|reflexivity].
      apply (symbols_split _ _ STerm) in HB as (C & D & -> & HC & HD); [|apply term_symbol'; exact Ht].
      rewrite (ident_symbols _ _ _ _ _ _ H1 Hid H2 HA) in *.
      apply symbols_find in Hs2 as (a & t1 & b & -> & Ht1 & Ha & Hb); [|discriminate]. destruct t1; try discriminate.
      apply symbols_find in Hb as (a2 & t2 & b2 & -> & Ht2 & Ha2 & Hb2); [|discriminate].
      apply symbols_one_id in Ha as (a3 & w3 & l3 & b3 & -> & Ha3 & Hid3 & Hb3).
      destruct (proj2 (proj2 (proj2 (proj2 transport_all))) _ _ Hd _ _ HC Ha2) as (d2 & Hd2 & Ed).
      destruct (IH _ _ HD Hb2) as (rs2 & Hg2 & HF).
      { eapply (Hmore b2 Hend ((a3 ++ w3 ++ b3) ++ TDefining l0 :: a2) t2). rewrite <- !app_assoc. reflexivity. }
      exists (opt_list (Some (Rule l3 id d2)) ++ rs2). split.
      * replace ((a3 ++ w3 ++ b3) ++ TDefining l0 :: a2 ++ t2 :: b2)
          with ((a3 ++ w3 ++ b3 ++ TDefining l0 :: a2 ++ [t2]) ++ b2) by (rewrite <- !app_assoc; cbn; rewrite <- !app_assoc; reflexivity).
        constructor; [|exact Hg2]. constructor; auto. apply term_symbol. exact Ht2.
      * cbn. constructor; [|exact HF]. unfold eq_but_loc, reloc_rule. cbn. f_equal. exact Ed.
    + rewrite <- app_assoc in Hs. cbn [app] in Hs.
      apply (symbols_split _ _ STerm) in Hs as (A & B & -> & HA & HB); [|apply term_symbol'; exact Ht].
      apply trivia_symbols in HA; [|exact Htr]. subst A.
      apply symbols_find in Hs2 as (a & t1 & b & -> & Ht1 & Ha & Hb); [|discriminate].
      destruct (IH _ _ HB Hb) as (rs2 & Hg2 & HF).
      { eapply (Hmore b Hend a t1). reflexivity. }
      apply symbols_none in Ha. exists (opt_list None ++ rs2). split; [|exact HF].
      replace (a ++ t1 :: b) with ((a ++ [t1]) ++ b) by (rewrite <- app_assoc; reflexivity).
      constructor; [|exact Hg2]. constructor; [exact Ha|]. apply term_symbol. exact Ht1.
Qed.

Lemma reloc_reloc : forall p, np (reloc_primary nowhere same p) = np p.
Proof.
  fix IH 1. intros p.
  assert (Hf : forall x : factor_ primary, Factor (f_rep x) (np (reloc_primary nowhere same (f_prim x))) = Factor (f_rep x) (np (f_prim x))).
  { intros [n q]. cbn. rewrite IH. reflexivity. }
  assert (Hd : forall d : definition_list, nd (reloc_defs nowhere same d) = nd d).
  { intros d. induction d as [|sd d IHd]; [reflexivity|]. unfold reloc_defs in *. cbn [map]. f_equal; [|exact IHd].
    induction sd as [|t sd IHs]; [reflexivity|]. unfold reloc_single in *. cbn [map]. f_equal; [|exact IHs].
    destruct t as [[n q] [[m q']|]]; unfold reloc_term, reloc_factor; cbn [t_factor t_exc option_map f_rep f_prim]; rewrite ?IH; reflexivity. }
  destruct p; cbn [reloc_primary]; try reflexivity; f_equal; exact (Hd _).
Qed.

Lemma reloc_defs_again : forall d : definition_list, nd (reloc_defs nowhere same d) = nd d.
Proof.
  intros d. pose proof (reloc_reloc (POptional (Loc [] 0 0) d)) as H. injection H. auto.
Qed.
Lemma empty_loc : forall a b, eq_but_empty a b -> eq_but_loc a b.
Proof.
  intros [l id d] [l' id' d'] H. unfold eq_but_empty, eq_but_loc, reloc_rule in *. cbn [r_loc r_id r_defs] in *.
  injection H as _ -> Hd. f_equal. rewrite <- (reloc_defs_again d), <- (reloc_defs_again d'). unfold reloc_defs. 
  unfold reloc_defs in Hd. rewrite Hd. reflexivity.
Qed.
Lemma same_symbols : forall name1 name2 s1 s2 ts1 ts2 ss rs1,
  lexes (loc_new name1) s1 ts1 -> lexes (loc_new name2) s2 ts2 ->
  symbols ts1 ss -> symbols ts2 ss -> parse_str name1 s1 = Ok rs1 ->
  exists rs2, parse_str name2 s2 = Ok rs2 /\ Forall2 eq_but_loc rs2 rs1.
Proof.
  intros name1 name2 s1 s2 ts1 ts2 ss rs1 H1 H2 S1 S2 Hp.
  apply parse_sound in Hp as (ts & Hl & Hg). rewrite (lexes_unique _ _ _ _ Hl H1) in Hg.
  destruct (transport_syntax _ _ Hg _ _ S1 S2) as (rs2 & Hg2 & HF).
  { left. apply lexes_shape in H2 as (ts0 & l & -> & _). eauto. }
  destruct (parse_complete _ _ _ _ H2 Hg2) as (rs3 & Hp3 & HF3). exists rs3. split; [exact Hp3|].
  clear - HF HF3. revert rs1 HF. induction HF3 as [|a b l l' Hab _ IH]; intros rs1 HF; inversion HF; subst; constructor; auto.
  apply empty_loc in Hab. unfold eq_but_loc in *. congruence.
Qed.

(** Trivia next to a symbol. *)
Lemma symbols_trailing : forall a A tr, symbols a A -> all_trivia tr -> symbols (a ++ tr) A.
Proof.
  intros a A tr H Ht. induction H as [|u ts ss Hu H IH|w l id rest ss Hid Hd H IH|u y ts ss Hu H IH]; cbn [app].
  - induction Ht; [constructor|]. constructor; assumption.
  - constructor; assumption.
  - rewrite <- app_assoc. econstructor; [exact Hid| |exact IH].
    intros g l0 s r Hg E.
    assert (K : forall rest g, Forall gapt g -> rest ++ tr = g ++ TMeta l0 s :: r -> exists r', rest = g ++ TMeta l0 s :: r').
    { clear - Ht. induction rest as [|x rest IH]; intros g Hg E.
      - exfalso. cbn [app] in E. rewrite E in Ht. apply Forall_app in Ht as (_ & Ht). inversion Ht; contradiction.
      - destruct g as [|y g]; cbn in E; injection E as -> E; [exists rest; reflexivity|].
        inversion Hg; subst. destruct (IH g H2 E) as (r' & ->). exists r'. reflexivity. }
    destruct (K rest g Hg E) as (r' & ->). exact (Hd g l0 s r' Hg eq_refl).
  - constructor; assumption.
Qed.
Lemma symbols_leading : forall tr b B, symbols b B -> all_trivia tr -> symbols (tr ++ b) B.
Proof. intros tr b B H Ht. induction Ht; [exact H|]. constructor; assumption. Qed.
Lemma symbols_join : forall a t b x A B, symbols a A -> symbols b B -> symbol_of t = Some x ->
  symbols (a ++ t :: b) (A ++ x :: B).
Proof.
  intros a t b x A B Ha Hb Ht. induction Ha as [|u ts ss Hu H IH|w l id rest ss Hid Hd H IH|u y ts ss Hu H IH]; cbn [app].
  - apply sy_symbol; assumption.
  - constructor; assumption.
  - rewrite <- app_assoc. econstructor; [exact Hid| |exact IH]. apply word_done_more; [exact Hd|congruence].
  - apply sy_symbol; assumption.
Qed.
Lemma symbols_insert : forall a t b tr1 tr2 ss, symbol_of t <> None -> all_trivia tr1 -> all_trivia tr2 ->
  symbols (a ++ t :: b) ss -> symbols (a ++ tr1 ++ t :: tr2 ++ b) ss.
Proof.
  intros a t b tr1 tr2 ss Ht H1 H2 H. destruct (symbol_of t) as [x|] eqn:Ex; [|congruence].
  apply (symbols_split _ _ x) in H as (A & B & -> & HA & HB); [|exact Ex].
  rewrite app_assoc. apply symbols_join; [apply symbols_trailing; assumption|apply symbols_leading; assumption|exact Ex].
Qed.

Lemma erase_symbol : forall t t', erase t = erase t' -> symbol_of t = symbol_of t'.
Proof. intros [] [] H; cbn in H; try discriminate; try reflexivity; injection H; intros; subst; reflexivity. Qed.
Lemma erase_text : forall t t', erase t = erase t' -> tok_text t = tok_text t'.
Proof. intros [] [] H; cbn in H; try discriminate; try reflexivity; injection H; intros; subst; reflexivity. Qed.
Lemma map_app_inv : forall {A B} (f : A -> B) a x y, map f a = x ++ y ->
  exists a1 a2, a = a1 ++ a2 /\ map f a1 = x /\ map f a2 = y.
Proof.
  intros A B f a x. revert a. induction x as [|b x IH]; intros a y H; [exists [], a; auto|].
  destruct a as [|c a]; [discriminate|]. cbn in H. injection H as Hc H.
  destruct (IH a y H) as (a1 & a2 & -> & E1 & E2). exists (c :: a1), a2. cbn. rewrite Hc, E1. auto.
Qed.
Lemma erase_ident : forall w l id w', g_ident w l id -> map erase w' = map erase w -> exists l', g_ident w' l' id.
Proof.
  intros w l id w' H E. destruct H as [l s w ws HW HL Hws].
  destruct w' as [|t w']; [discriminate|]. cbn [map] in E. injection E as Et E. destruct t; cbn in Et; try discriminate.
  injection Et as ->. exists l0.
  assert (Etext : forall w w', map erase w' = map erase w -> flat_map tok_text w' = flat_map tok_text w).
  { clear. induction w as [|x w IH]; intros [|y w'] E; try discriminate; [reflexivity|]. cbn in *. injection E as E1 E.
    rewrite (erase_text _ _ E1), (IH _ E). reflexivity. }
  constructor.
  - clear - HW E. revert w' E. induction HW as [|x w Hx _ IH]; intros [|y w'] E; try discriminate; constructor.
    + cbn in E. injection E as E _. destruct x, y; try contradiction; try discriminate; exact I.
    + cbn in E. injection E as _ E. auto.
  - destruct HL as [->|(v & l1 & s1 & ->)].
    + left. destruct w'; [reflexivity|discriminate].
    + right. rewrite map_app in E. apply map_app_inv in E as (a1 & a2 & -> & _ & E).
      destruct a2 as [|y [|]]; try discriminate. cbn in E. injection E as E. destruct y; try discriminate. eauto.
  - cbn [flat_map]. rewrite (Etext _ _ E). exact Hws.
Qed.
Lemma erase_done : forall r r', word_done r -> map erase r' = map erase r -> word_done r'.
Proof.
  intros r r' H E g l s x Hg ->. rewrite map_app in E. symmetry in E. apply map_app_inv in E as (a1 & a2 & -> & E1 & E2).
  destruct a2 as [|y a2]; [discriminate|]. cbn in E2. injection E2 as Ey E2. destruct y; cbn in Ey; try discriminate.
  refine (H a1 l0 s0 a2 _ eq_refl). clear - Hg E1. revert g Hg E1. induction a1 as [|z a1 IH]; intros [|y g] Hg E1; try discriminate; constructor.
  - inversion Hg; subst. destruct H1 as (l & s & ->). cbn in E1. injection E1 as E1 _. destruct z; try discriminate. exists l0, s0. reflexivity.
  - inversion Hg; subst. cbn in E1. injection E1 as _ E1. eauto.
Qed.
Lemma erase_symbols : forall ts ss, symbols ts ss -> forall ts', map erase ts' = map erase ts -> symbols ts' ss.
Proof.
  intros ts ss H. induction H as [|u ts ss Hu H IH|w l id rest ss Hid Hd H IH|u y ts ss Hu H IH]; intros ts' E.
  - destruct ts'; [constructor|discriminate].
  - destruct ts' as [|x ts']; [discriminate|]. cbn in E. injection E as E1 E. constructor; [|auto].
    destruct u, x; try contradiction; try discriminate; exact I.
  - rewrite map_app in E. apply map_app_inv in E as (a1 & a2 & -> & E1 & E2).
    destruct (erase_ident _ _ _ _ Hid E1) as (l' & Hid'). econstructor; [exact Hid'| |auto].
    eapply erase_done; eassumption.
  - destruct ts' as [|x ts']; [discriminate|]. cbn in E. injection E as E1 E. apply sy_symbol; [|auto].
    rewrite (erase_symbol _ _ E1). exact Hu.
Qed.
Lemma symbols_total : forall ts, vt ts -> exists ss, symbols ts ss.
Proof.
  intros ts. remember (length ts) as n eqn:En. revert ts En.
  induction n as [n IH] using lt_wf_ind. intros ts En Hv.
  destruct ts as [|t ts]; [exists []; constructor|].
  destruct (symbol_of t) as [x|] eqn:Ex.
  - destruct (IH (length ts) ltac:(rewrite En; cbn [length]; lia) ts eq_refl (vt_cons _ _ Hv)) as (ss & Hs).
    exists (x :: ss). apply sy_symbol; assumption.
  - destruct (triviab t) eqn:Et.
    + destruct (IH (length ts) ltac:(rewrite En; cbn [length]; lia) ts eq_refl (vt_cons _ _ Hv)) as (ss & Hs).
      exists ss. apply triviab_spec in Et. constructor; assumption.
    + destruct t; try discriminate.
      destruct (rmi_sound l s ts Hv) as (w & gaps & id & next & E & Hid & Hg & Hn & _).
      assert (Hlen : length (gaps ++ next) < n).
      { subst n. rewrite E, (app_length w). destruct Hid. cbn [length]. lia. }
      destruct (IH _ Hlen (gaps ++ next) eq_refl) as (ss & Hs).
      { rewrite E in Hv. apply vt_app in Hv. tauto. }
      exists (SId id :: ss). rewrite E. econstructor; [exact Hid| |exact Hs].
      intros g l0 s0 r Hg0 Eg.
      assert (K : forall gaps g, Forall (fun t => is_gap_token t = true) gaps -> Forall gapt g ->
                gaps ++ next = g ++ TMeta l0 s0 :: r -> False).
      { clear - Hn. induction gaps as [|x gaps IH]; intros g Hgs Hg E.
        - cbn in E. destruct g as [|y g]; cbn in E.
          + specialize (Hn _ _ E). discriminate.
          + inversion Hg; subst. destruct H1 as (l1 & s1 & ->). specialize (Hn _ _ eq_refl). discriminate.
        - inversion Hgs; subst. destruct g as [|y g]; cbn in E; injection E as -> E; [discriminate|].
          inversion Hg; subst. eapply IH; eassumption. }
      exact (K gaps g Hg Hg0 Eg).
Qed.

Lemma trivia_inserted : forall name1 name2 s1 s2 a t b tr1 tr2 ts2 rs1,
  lexes (loc_new name1) s1 (a ++ t :: b) -> lexes (loc_new name2) s2 ts2 ->
  symbol_of t <> None -> all_trivia tr1 -> all_trivia tr2 ->
  map erase ts2 = map erase (a ++ tr1 ++ t :: tr2 ++ b) ->
  (parse_str name1 s1 = Ok rs1 -> exists rs2, parse_str name2 s2 = Ok rs2 /\ Forall2 eq_but_loc rs2 rs1) /\
  (parse_str name2 s2 = Ok rs1 -> exists rs2, parse_str name1 s1 = Ok rs2 /\ Forall2 eq_but_loc rs2 rs1).
Proof.
  intros name1 name2 s1 s2 a t b tr1 tr2 ts2 rs1 H1 H2 Ht Ht1 Ht2 E.
  destruct (symbols_total _ (lexes_vt _ _ _ H1)) as (ss & S1).
  assert (S2 : symbols ts2 ss) by (eapply erase_symbols; [apply (symbols_insert a t b tr1 tr2); eassumption|exact E]).
  split; intros Hp.
  - exact (same_symbols _ _ _ _ _ _ _ _ H1 H2 S1 S2 Hp).
  - exact (same_symbols _ _ _ _ _ _ _ _ H2 H1 S2 S1 Hp).
Qed.
