(** Property C95: rules that can be parsed by looking one character ahead are parsed in time
    proportional to the text.

    [predictive] (SpecLL.v) are the LL(1) rules, [productive] (SpecDeriv.v) says that every
    construct has a word.  The number of instructions is then at most the length of the text
    times a number that depends on the rules alone, and another such number
    ([step_bound], SpecLinear.v), whether the text is accepted or not.  Without the second
    condition it is not. *)
From Coq Require Import String List NArith Arith Bool Lia Relations.
From Verif Require Import Base Ident Tokenizer Ast Lex Syntax Io Graph Machine MachineSteps SpecText SpecSyntax SpecIo TextFacts SyntaxFacts IoFacts SpecParse SpecMachine SpecEvents SpecTotal SpecLL SpecDeriv SpecWork SpecLinear Pure PureFacts ParseFacts CodeFacts RunFacts RunComplete EvFacts MachineFacts TotalFacts FuelFacts WorkFacts WorkApi LLFacts LLCheck ProdCheck LinearFacts PropSyntax PropParse PropEvents PropTotal PropDepth PropLL PropDeriv PropWork.
Import ListNotations.
Open Scope nat_scope.

Lemma labour_linear : forall rs cfg id s k, predictive rs cfg id -> productive rs cfg ->
  (exists g m, parser_for rs cfg g id m) -> labour rs cfg id s k -> k <= step_bound rs (length (p_rest s)).
Proof.
  intros rs cfg id s k (Hc & Hs & Ha & Hl) Hprod (g & m & Hp) (r & Hn & Hw).
  assert (HB : 1 <= steps_at_rest rs) by (apply (resting_up (syntax_effort rs) 0); lia).
  assert (Hself : names rs (r_id r) r) by (split; [exact (proj1 Hn)|apply same_name_keyed; reflexivity]).
  destruct (defs_end rs cfg Hl (r_defs r) s) as (o & Ho).
  destruct (rule_few rs cfg id Hs Hc Ha Hl Hprod (steps_at_rest rs) (steps_on_the_way rs) (syntax_effort rs) HB eq_refl eq_refl eq_refl r s o (proj1 Hn)) as (k' & Hk' & Hle).
  { exists None. apply af_start. exact Hn. }
  { exact Ho. }
  assert (L1 : labour rs cfg id s (1 + k')) by (exists r; split; [exact Hn|]; eapply wk_ref; [exact Hself|exact Hk']).
  assert (L2 : labour rs cfg id s k) by (exists r; split; [exact Hn|exact Hw]).
  rewrite (labour_fun rs cfg _ _ _ _ _ _ Hp L2 L1). exact Hle.
Qed.
Lemma linear_pf : forall rs cfg g id m debug fuel rd, parser_for rs cfg g id m -> reader rd -> ending_of rd = None ->
  predictive rs cfg id -> productive rs cfg -> fst (parser_parse debug g fuel m rd) <> OutOfFuel ->
  parser_steps debug g fuel m rd <= step_bound rs (length (unread rd)).
Proof.
  intros rs cfg g id m debug fuel rd Hp Hr He Hpr Hprod Hne.
  pose proof (proj2 (steps_exact rs cfg g id m debug fuel rd Hp Hr He Hne (parser_steps debug g fuel m rd)) eq_refl) as HL.
  exact (labour_linear rs cfg id _ _ Hpr Hprod (ex_intro _ g (ex_intro _ m Hp)) HL).
Qed.
Theorem C95_linear : forall rs cfg g id m debug fuel rd, parser_for rs cfg g id m -> reader rd -> ending_of rd = None ->
  predictive rs cfg id -> productive rs cfg -> fst (parser_parse debug g fuel m rd) <> OutOfFuel ->
  parser_steps debug g fuel m rd <= step_bound rs (length (unread rd)).
Proof. exact linear_pf. Qed.
Print Assumptions C95_linear.
(** Such a parse always ends. *)
Theorem C95_ends : forall rs cfg g id m debug rd, parser_for rs cfg g id m -> reader rd -> ending_of rd = None ->
  predictive rs cfg id -> productive rs cfg ->
  exists f0, forall fuel, f0 <= fuel -> fst (parser_parse debug g fuel m rd) <> OutOfFuel /\
    parser_steps debug g fuel m rd <= step_bound rs (length (unread rd)).
Proof.
  intros rs cfg g id m debug rd Hp Hr He Hpr Hprod. destruct (parse_ends rs cfg g id m debug rd Hp Hr He (proj2 (proj2 (proj2 Hpr)))) as (f0 & Hf).
  exists f0. intros fuel Hle. specialize (Hf fuel Hle). split; [exact Hf|]. eapply linear_pf; eauto.
Qed.
Print Assumptions C95_ends.
(** Both conditions can be computed (C63, C67). *)
Theorem C95_checked : forall class rs cfg g id m debug fuel rd, parser_for rs cfg g id m -> reader rd -> ending_of rd = None ->
  ll1 class rs id = true -> fruitful class rs = true ->
  (forall l c rgs many, class c = Some (rgs, many) -> cfg l c = ScChars (has rgs) (Some 1%N) (if many then None else Some 1%N)) ->
  no_forwarding cfg -> fst (parser_parse debug g fuel m rd) <> OutOfFuel ->
  parser_steps debug g fuel m rd <= step_bound rs (length (unread rd)).
Proof.
  intros class rs cfg g id m debug fuel rd Hp Hr He H1 H2 Hc Hf Hne. eapply linear_pf; eauto; [eapply ll1_predictive; eauto|eapply fruitful_productive; eauto].
Qed.
Print Assumptions C95_checked.

(** ** Without words for every construct *)
Definition barren : str := txt "S='(',S,U|'(',S,']'|'x';U='(',U;".
Lemma barren_means : exists r u l1 l2 l3 l4 l5 l6 l7 l8 l9, rules_of barren = [r; u] /\ r_id r = [83%N] /\ r_id u = [85%N] /\
  r_defs r = [[Term (Factor 1 (PTerminal l1 [40%N])) None; Term (Factor 1 (PMeta l2 [83%N])) None; Term (Factor 1 (PMeta l3 [85%N])) None];
              [Term (Factor 1 (PTerminal l4 [40%N])) None; Term (Factor 1 (PMeta l5 [83%N])) None; Term (Factor 1 (PTerminal l6 [93%N])) None];
              [Term (Factor 1 (PTerminal l7 [120%N])) None]] /\
  r_defs u = [[Term (Factor 1 (PTerminal l8 [40%N])) None; Term (Factor 1 (PMeta l9 [85%N])) None]].
Proof. vm_compute. eexists _, _, _, _, _, _, _, _, _, _, _. repeat (split; [reflexivity|]). reflexivity. Qed.
Lemma barren_work : forall n s rest, p_rest s = repeat 40%N n ++ [120%N] ++ repeat 93%N n ++ rest ->
  exists s' k, (forall l, exists e, ev (rules_of barren) default_config (NRef l [83%N]) s (Match s' e)) /\ p_rest s' = rest /\
    (forall l, work (rules_of barren) default_config (NRef l [83%N]) s k) /\ k + 7 = 12 * 2 ^ n.
Proof.
  destruct barren_means as (r & u & l1 & l2 & l3 & l4 & l5 & l6 & l7 & l8 & l9 & Hr & Hid & Hidu & Hd & Hdu). rewrite Hr.
  assert (Hn : names [r; u] [83%N] r) by (split; [left; reflexivity|apply same_name_keyed; rewrite Hid; reflexivity]).
  assert (Hu : names [r; u] [85%N] u) by (split; [right; left; reflexivity|apply same_name_keyed; rewrite Hidu; reflexivity]).
  assert (Lt : forall t l w s s', t = Term (Factor 1 (PTerminal l w)) None -> goes s w s' -> exists e, ev [r; u] default_config (NTerm t) s (Match s' e)).
  { intros t l w s s' -> Hg. eexists. apply ev_term_plain, ev_factor_one, ev_terminal. exact Hg. }
  assert (Lw : forall l w s, work [r; u] default_config (NTerm (Term (Factor 1 (PTerminal l w)) None)) s 1).
  { intros l w s. apply wk_term_plain, wk_factor_one, wk_terminal. }
  assert (Ln : forall l w ts s, (forall s', ~ goes s w s') -> exists x s' e, ev [r; u] default_config (NSeq (Term (Factor 1 (PTerminal l w)) None :: ts)) s (No x s' e)).
  { intros l w ts s Hg. eexists _, _, _. eapply ev_seq_no; [reflexivity|]. apply ev_term_plain, ev_factor_one, ev_terminal_no. exact Hg. }
  assert (Lno : forall l w ts s, (forall s', ~ goes s w s') -> work [r; u] default_config (NSeq (Term (Factor 1 (PTerminal l w)) None :: ts)) s 1).
  { intros l w ts s Hg. eapply wk_seq_over; [reflexivity|apply ev_term_plain, ev_factor_one, ev_terminal_no; exact Hg|apply over_no|apply Lw]. }
  induction n as [|n IH]; intros s rest Hs.
  - cbn in Hs. destruct (one_more _ _ _ Hs) as (s1 & Hg1 & Hr1). exists s1, 5.
    assert (N1 : forall s', ~ goes s [40%N] s') by (intros s'; eapply other; [exact Hs|discriminate]).
    destruct (Ln l1 [40%N] [Term (Factor 1 (PMeta l2 [83%N])) None; Term (Factor 1 (PMeta l3 [85%N])) None] s N1) as (x1 & t1 & e1 & A1).
    destruct (Ln l4 [40%N] [Term (Factor 1 (PMeta l5 [83%N])) None; Term (Factor 1 (PTerminal l6 [93%N])) None] s N1) as (x2 & t2 & e2 & A2).
    destruct (Lt _ l7 [120%N] s s1 eq_refl Hg1) as (e3 & A3).
    assert (B3 : exists e, ev [r; u] default_config (NSeq [Term (Factor 1 (PTerminal l7 [120%N])) None]) s (Match s1 e)) by (eexists; eapply seq_more; [reflexivity|exact A3|apply ev_seq_nil]).
    destruct B3 as (d3 & B3).
    split; [|split; [exact Hr1|split; [|reflexivity]]].
    + intros l. eexists. eapply ev_ref; [exact Hn|]. rewrite Hd. apply ev_defs. eapply ev_alts_next; [exact A1|]. eapply ev_alts_next; [exact A2|]. apply ev_alts_first. exact B3.
    + intros l. change 5 with (1 + (1 + (1 + (1 + (1 + 0))))). eapply wk_ref; [exact Hn|]. rewrite Hd. apply wk_defs.
      eapply wk_alts_next; [exact A1|apply Lno; exact N1|]. eapply wk_alts_next; [exact A2|apply Lno; exact N1|].
      eapply wk_alts_end; [exact B3|discriminate|]. eapply wk_seq; [reflexivity|exact A3|apply Lw|apply wk_seq_nil].
  - cbn [repeat app] in Hs. destruct (one_more _ _ _ Hs) as (s1 & Hg1 & Hr1).
    destruct (IH s1 (93%N :: rest)) as (s2 & k & H2 & Hr2 & Hk & Hnum).
    { rewrite Hr1. f_equal. cbn [app]. f_equal. change (93%N :: repeat 93%N n ++ rest) with (repeat 93%N (S n) ++ rest).
      replace (S n) with (n + 1) by lia. rewrite repeat_app, <- app_assoc. reflexivity. }
    destruct (one_more _ _ _ Hr2) as (s3 & Hg3 & Hr3). exists s3, (1 + (1 + ((1 + (k + (1 + 1))) + (1 + (k + (1 + 0)))))).
    assert (N3 : forall s', ~ goes s2 [40%N] s') by (intros s'; eapply other; [exact Hr2|discriminate]).
    destruct (H2 l2) as (e2 & V2). destruct (H2 l5) as (e5 & V5).
    destruct (Lt _ l1 [40%N] s s1 eq_refl Hg1) as (e1 & V1). destruct (Lt _ l4 [40%N] s s1 eq_refl Hg1) as (e4 & V4). destruct (Lt _ l6 [93%N] s2 s3 eq_refl Hg3) as (e6 & V6).
    destruct (Ln l8 [40%N] [Term (Factor 1 (PMeta l9 [85%N])) None] s2 N3) as (x3 & t3 & e3 & V3).
    assert (U3 : ev [r; u] default_config (NTerm (Term (Factor 1 (PMeta l3 [85%N])) None)) s2 (No x3 t3 [])).
    { apply ev_term_plain, ev_factor_one, ev_meta. eapply ev_ref_no; [exact Hu|]. rewrite Hdu. apply ev_defs_one. exact V3. }
    assert (T2 : ev [r; u] default_config (NTerm (Term (Factor 1 (PMeta l2 [83%N])) None)) s1 (Match s2 e2)) by (apply ev_term_plain, ev_factor_one, ev_meta; exact V2).
    assert (T5 : ev [r; u] default_config (NTerm (Term (Factor 1 (PMeta l5 [83%N])) None)) s1 (Match s2 e5)) by (apply ev_term_plain, ev_factor_one, ev_meta; exact V5).
    assert (A1 : exists x t e, ev [r; u] default_config (NSeq [Term (Factor 1 (PTerminal l1 [40%N])) None; Term (Factor 1 (PMeta l2 [83%N])) None; Term (Factor 1 (PMeta l3 [85%N])) None]) s (No x t e)).
    { eexists _, _, _. eapply (ev_seq _ _ _ _ s s1 e1 (No _ _ _)); [reflexivity|exact V1|]. eapply (ev_seq _ _ _ _ s1 s2 e2 (No _ _ _)); [reflexivity|exact T2|]. eapply ev_seq_no; [reflexivity|exact U3]. }
    destruct A1 as (x1 & t1 & d1 & A1).
    assert (A2 : exists e, ev [r; u] default_config (NSeq [Term (Factor 1 (PTerminal l4 [40%N])) None; Term (Factor 1 (PMeta l5 [83%N])) None; Term (Factor 1 (PTerminal l6 [93%N])) None]) s (Match s3 e)).
    { eexists. eapply seq_more; [reflexivity|exact V4|]. eapply seq_more; [reflexivity|exact T5|]. eapply seq_more; [reflexivity|exact V6|apply ev_seq_nil]. }
    destruct A2 as (d2 & A2).
    split; [|split; [exact Hr3|split]].
    + intros l. eexists. eapply ev_ref; [exact Hn|]. rewrite Hd. apply ev_defs. eapply ev_alts_next; [exact A1|]. apply ev_alts_first. exact A2.
    + intros l. eapply wk_ref; [exact Hn|]. rewrite Hd. apply wk_defs. eapply wk_alts_next; [exact A1| |].
      * eapply wk_seq; [reflexivity|exact V1|apply Lw|]. eapply wk_seq; [reflexivity|exact T2|apply wk_term_plain, wk_factor_one, wk_meta, Hk|].
        eapply wk_seq_over; [reflexivity|exact U3|intros ? ?; discriminate|]. apply wk_term_plain, wk_factor_one, wk_meta. eapply wk_ref; [exact Hu|]. rewrite Hdu. apply wk_defs_one. apply Lno. exact N3.
      * eapply wk_alts_end; [exact A2|discriminate|]. eapply wk_seq; [reflexivity|exact V4|apply Lw|]. eapply wk_seq; [reflexivity|exact T5|apply wk_term_plain, wk_factor_one, wk_meta, Hk|].
        eapply wk_seq; [reflexivity|exact V6|apply Lw|apply wk_seq_nil].
    + cbn [Nat.pow]. lia.
Qed.
(** Rules without brackets, special sequences, exceptions and counts. *)
Definition bald (t : term) : Prop := exists p, t = Term (Factor 1 p) None /\ match p with PMeta _ _ | PTerminal _ (_ :: _) => True | _ => False end.
Lemma bald_parts : forall rs, (forall r, In r rs -> Forall (Forall bald) (r_defs r)) -> forall n, part rs n ->
  match n with
  | NDefs ds => exists r, In r rs /\ ds = r_defs r
  | NSeq ts => exists r b d, In r rs /\ In d (r_defs r) /\ d = b ++ ts
  | NTerm t => exists r d, In r rs /\ In d (r_defs r) /\ In t d
  | NFactor f => exists r d, In r rs /\ In d (r_defs r) /\ In (Term f None) d
  | NPrim p => exists r d, In r rs /\ In d (r_defs r) /\ In (Term (Factor 1 p) None) d
  | _ => False
  end.
Proof.
  intros rs Hb n H.
  assert (Hbald : forall r d t, In r rs -> In d (r_defs r) -> In t d -> bald t).
  { intros r d t Hr Hd Ht. pose proof (Hb r Hr) as K. rewrite Forall_forall in K. specialize (K d Hd). rewrite Forall_forall in K. exact (K t Ht). }
  induction H.
  - eauto.
  - destruct IHpart as (r & Hr & ->). exists r, [], d. auto.
  - destruct IHpart as (r & b & d & Hr & Hd & E). exists r, d. split; [exact Hr|]. split; [exact Hd|]. rewrite E. apply in_or_app. right. left. reflexivity.
  - destruct IHpart as (r & b & d & Hr & Hd & E). exists r, (b ++ [t]), d. split; [exact Hr|]. split; [exact Hd|]. rewrite <- app_assoc. exact E.
  - destruct IHpart as (r & d & Hr & Hd & Hin). destruct (Hbald r d _ Hr Hd Hin) as (p & E & _). injection E as -> ->. eauto.
  - destruct IHpart as (r & d & Hr & Hd & Hin). destruct (Hbald r d _ Hr Hd Hin) as (p' & E & _). injection E as -> ->. eauto.
  - destruct IHpart as (r & d' & Hr & Hd & Hin). destruct (Hbald r d' _ Hr Hd Hin) as (p' & E & K). injection E as <-. destruct K.
  - destruct IHpart as (r & d' & Hr & Hd & Hin). destruct (Hbald r d' _ Hr Hd Hin) as (p' & E & K). injection E as <-. destruct K.
  - destruct IHpart as (r & d' & Hr & Hd & Hin). destruct (Hbald r d' _ Hr Hd Hin) as (p' & E & K). injection E as <-. destruct K.
Qed.
Lemma lang_word : forall rs cfg l a ts w, lang cfg rs (NSeq (Term (Factor 1 (PTerminal l a)) None :: ts)) w -> exists v, w = a ++ v /\ lang cfg rs (NSeq ts) v.
Proof.
  intros rs cfg l a ts w H. inversion H; subst. match goal with X : lang _ _ (NTerm _) _ |- _ => inversion X; subst end.
  match goal with X : lang _ _ (NFactor _) _ |- _ => inversion X; subst end. 
  match goal with X : N.succ ?n = 1%N |- _ => assert (n = 0%N) by lia; subst n end.
  match goal with X : lang _ _ (NFactor (Factor 0 _)) _ |- _ => inversion X; subst; [|lia] end. match goal with X : lang _ _ (NPrim _) _ |- _ => inversion X; subst end. rewrite app_nil_r. eauto.
Qed.
Lemma lang_name : forall rs cfg l a ts w, lang cfg rs (NSeq (Term (Factor 1 (PMeta l a)) None :: ts)) w ->
  exists r w1 w2, names rs a r /\ w = w1 ++ w2 /\ lang cfg rs (NDefs (r_defs r)) w1 /\ lang cfg rs (NSeq ts) w2.
Proof.
  intros rs cfg l a ts w H. inversion H; subst. match goal with X : lang _ _ (NTerm _) _ |- _ => inversion X; subst end.
  match goal with X : lang _ _ (NFactor _) _ |- _ => inversion X; subst end.
  match goal with X : N.succ ?n = 1%N |- _ => assert (n = 0%N) by lia; subst n end.
  match goal with X : lang _ _ (NFactor (Factor 0 _)) _ |- _ => inversion X; subst; [|lia] end. match goal with X : lang _ _ (NPrim _) _ |- _ => inversion X; subst end. rewrite app_nil_r. eauto 8.
Qed.
Lemma barren_left : forall r, In r (rules_of barren) -> ~ left_recursive (rules_of barren) default_config r.
Proof.
  apply (ranked _ _ (fun _ => 0)). intros r r' (Hr & Hs).
  destruct barren_means as (a & u & l1 & l2 & l3 & l4 & l5 & l6 & l7 & l8 & l9 & E & Hid & Hidu & Hd & Hdu). rewrite E in Hr, Hs. exfalso.
  destruct Hr as [<-|[<-|[]]]; [rewrite Hd in Hs|rewrite Hdu in Hs].
  all: repeat match goal with
    | X : starts _ _ (NDefs _) _ |- _ => inversion X; clear X; subst
    | X : In _ [_] |- _ => destruct X as [<-|[]]
    | X : In _ (_ :: _) |- _ => destruct X as [<-|X]
    | X : starts _ _ (NSeq _) _ |- _ => inversion X; clear X; subst
    | X : starts _ _ (NTerm _) _ |- _ => inversion X; clear X; subst
    | X : starts _ _ (NFactor _) _ |- _ => inversion X; clear X; subst
    | X : starts _ _ (NPrim (PTerminal _ _)) _ |- _ => inversion X; fail
    | X : skips _ _ (NTerm (Term (Factor 1 (PTerminal _ _)) _)) |- _ => inversion X; clear X; subst
    | X : skips _ _ (NFactor _) |- _ => inversion X; clear X; subst
    | X : skips _ _ (NPrim (PTerminal _ _)) |- _ => inversion X; fail
    end.
Qed.
Lemma barren_none : forall r l w, names (rules_of barren) [85%N] r -> lang default_config (rules_of barren) (NPrim (PMeta l [85%N])) w -> False.
Proof.
  destruct barren_means as (a & u & l1 & l2 & l3 & l4 & l5 & l6 & l7 & l8 & l9 & E & Hid & Hidu & Hd & Hdu).
  assert (U : forall r, names (rules_of barren) [85%N] r -> r_defs r = r_defs u).
  { intros r (Hin & K). rewrite E in Hin. apply same_name_keyed in K. destruct Hin as [<-|[<-|[]]]; [|reflexivity]. rewrite Hid in K. vm_compute in K. discriminate K. }
  assert (Z : forall n w, length w <= n -> ~ lang default_config (rules_of barren) (NDefs (r_defs u)) w).
  { induction n as [|n IH]; intros w Hl H; rewrite Hdu in H; inversion H; subst.
    all: match goal with X : In _ [_] |- _ => destruct X as [<-|[]] end.
    all: match goal with X : lang _ _ (NSeq _) _ |- _ => apply lang_word in X; destruct X as (v & -> & X) end.
    - cbn in Hl. lia.
    - match goal with X : lang _ _ (NSeq _) _ |- _ => apply lang_name in X; destruct X as (r & w1 & w2 & Hn & -> & Hw & _) end.
      rewrite (U r Hn) in Hw. apply (IH w1); [|exact Hw]. rewrite !app_length in Hl. cbn [length] in Hl. lia. }
  intros r l w _ H. inversion H; subst. match goal with X : names _ _ _ |- _ => rewrite (U _ X) in * end. eapply (Z (length w)); [apply le_n|]. eassumption.
Qed.
Lemma barren_predictive : predictive (rules_of barren) default_config (txt "S").
Proof.
  pose proof barren_left as HL. pose proof barren_none as HN.
  destruct barren_means as (a & u & l1 & l2 & l3 & l4 & l5 & l6 & l7 & l8 & l9 & E & Hid & Hidu & Hd & Hdu).
  assert (Hb : forall r, In r (rules_of barren) -> Forall (Forall bald) (r_defs r)).
  { intros r Hr. rewrite E in Hr. destruct Hr as [<-|[<-|[]]]; [rewrite Hd|rewrite Hdu]; repeat constructor; eexists; (split; [reflexivity|exact I]). }
  pose proof (bald_parts _ Hb) as HP.
  assert (Hbald : forall r d t, In r (rules_of barren) -> In d (r_defs r) -> In t d -> bald t).
  { intros r d t Hr Hdd Ht. pose proof (Hb r Hr) as K. rewrite Forall_forall in K. specialize (K d Hdd). rewrite Forall_forall in K. exact (K t Ht). }
  assert (HQ : forall p, part (rules_of barren) (NPrim p) -> match p with PMeta _ _ | PTerminal _ (_ :: _) => True | _ => False end).
  { intros p H. destruct (HP _ H) as (r & d & Hr & Hdd & Hin). destruct (Hbald _ _ _ Hr Hdd Hin) as (p' & Ep & K). injection Ep as ->. exact K. }
  split; [|split; [|split; [|exact HL]]].
  - split; [|split; [|split; [|split; [|split]]]].
    + intros H. destruct (HP _ H) as (r & Hr & Z). rewrite E in Hr. destruct Hr as [<-|[<-|[]]]; [rewrite Hd in Z|rewrite Hdu in Z]; discriminate Z.
    + intros l id H. destruct (HP _ H) as (r & d & Hr & Hdd & Hin). rewrite E in Hr.
      assert (K : id = [83%N] \/ id = [85%N]).
      { destruct Hr as [<-|[<-|[]]]; [rewrite Hd in Hdd|rewrite Hdu in Hdd].
        - destruct Hdd as [<-|[<-|[<-|[]]]]; cbn [In] in Hin; repeat destruct Hin as [Hin|Hin]; try discriminate Hin; try contradiction; injection Hin as _ <-; auto.
        - destruct Hdd as [<-|[]]; cbn [In] in Hin; repeat destruct Hin as [Hin|Hin]; try discriminate Hin; try contradiction; injection Hin as _ <-; auto. }
      rewrite E. destruct K as [->| ->]; [exists a|exists u]; split; try (left; reflexivity); try (right; left; reflexivity); apply same_name_keyed; [rewrite Hid|rewrite Hidu]; reflexivity.
    + intros l c s e H. destruct (HQ _ H).
    + intros l d H. destruct (HQ _ H).
    + intros p H. destruct (HP _ H) as (r & d & Hr & Hdd & Hin). destruct (Hbald _ _ _ Hr Hdd Hin) as (p' & Ep & K). discriminate Ep.
    + apply (library_scanners default_config). intros l c. exact I.
  - split.
    + intros f e H. destruct (HP _ H) as (r & d & Hr & Hdd & Hin). destruct (Hbald _ _ _ Hr Hdd Hin) as (p' & Ep & K). discriminate Ep.
    + intros t ts H K. exfalso. apply K. destruct (HP _ H) as (r & b & d & Hr & Hdd & Ed). assert (Ht : In t d) by (rewrite Ed; apply in_or_app; right; left; reflexivity).
      destruct (Hbald _ _ _ Hr Hdd Ht) as (p' & Ep & Kp). rewrite Ep. destruct p'; try reflexivity; destruct Kp.
  - split; [|split; [|split]].
    + intros before d between d' behind x H. apply after_part in H. destruct (HP _ H) as (r & Hr & Z). rewrite E in Hr.
      assert (W1 : forall w, ~ lang default_config (rules_of barren) (NSeq [Term (Factor 1 (PTerminal l1 [40%N])) None; Term (Factor 1 (PMeta l2 [83%N])) None; Term (Factor 1 (PMeta l3 [85%N])) None]) w).
      { intros w Hw. apply lang_word in Hw. destruct Hw as (v & _ & Hw). apply lang_name in Hw. destruct Hw as (r1 & w1 & w2 & _ & _ & _ & Hw). apply lang_name in Hw.
        destruct Hw as (r2 & w3 & w4 & Hn & _ & Hw & _). exact (HN r2 l3 w3 Hn (lg_meta _ _ _ _ _ _ Hn Hw)). }
      assert (W2 : forall w, lang default_config (rules_of barren) (NSeq [Term (Factor 1 (PTerminal l4 [40%N])) None; Term (Factor 1 (PMeta l5 [83%N])) None; Term (Factor 1 (PTerminal l6 [93%N])) None]) w -> exists v, w = 40%N :: v).
      { intros w Hw. apply lang_word in Hw. destruct Hw as (v & -> & _). cbn [app]. eauto. }
      assert (W3 : forall w, lang default_config (rules_of barren) (NSeq [Term (Factor 1 (PTerminal l7 [120%N])) None]) w -> exists v, w = 120%N :: v).
      { intros w Hw. apply lang_word in Hw. destruct Hw as (v & -> & _). cbn [app]. eauto. }
      destruct Hr as [<-|[<-|[]]]; [rewrite Hd in Z|rewrite Hdu in Z].
      * destruct before as [|b0 before]; cbn [app] in Z; injection Z as Z0 Z.
        { subst d. split; [apply W1|split; [intros c (w & Hw); destruct (W1 _ Hw)|intros _ c _ (w & Hw); destruct (W1 _ Hw)]]. }
        destruct before as [|b1 before]; cbn [app] in Z; injection Z as Z1 Z.
        2:{ destruct before as [|b2 before]; cbn [app] in Z; injection Z as Z2 Z; [destruct between; discriminate Z|destruct before; discriminate Z]. }
        subst d. destruct between as [|b2 between]; cbn [app] in Z; injection Z as Z2 Z; [|destruct between; discriminate Z]. subst d'.
        split; [|split].
        { intros Hw. destruct (W2 _ Hw) as (v & Q). discriminate Q. }
        { intros c (w & Hw) (w' & Hw'). destruct (W2 _ Hw) as (v & Q). destruct (W3 _ Hw') as (v' & Q'). injection Q as -> _. discriminate Q'. }
        { intros Hv. destruct (W3 _ Hv) as (v' & Q'). discriminate Q'. }
      * exfalso. destruct before as [|b0 before]; cbn [app] in Z; injection Z as Z0 Z; [destruct between; discriminate Z|destruct before; discriminate Z].
    + intros l d c H. apply after_part in H. destruct (HQ _ H).
    + intros l d c H. apply after_part in H. destruct (HQ _ H).
    + intros l k w s s' H. apply after_part in H. destruct (HQ _ H).
Qed.
(** Some of these constructs have no words, and the parse of a text of [2n + 1] characters
    takes [12 * 2^n - 7] instructions. *)
Theorem C95_productive_needed : exists g m, parser_for (rules_of barren) default_config g (txt "S") m /\
  predictive (rules_of barren) default_config (txt "S") /\ forall n,
  length (squared n) = 2 * n + 1 /\
  exists fuel, (exists evs, fst (parser_parse false g fuel m (text_reader (squared n))) = Ok evs) /\
    parser_steps false g fuel m (text_reader (squared n)) + 7 = 12 * 2 ^ n.
Proof.
  destruct (prepare default_config barren (txt "S")) as [(g & m)|] eqn:E; [|vm_compute in E; discriminate]. exists g, m.
  pose proof (prepare_ok _ _ _ _ _ E) as Hp. split; [exact Hp|]. split; [exact barren_predictive|]. intros n. destruct (text_reader_ok (squared n)) as (H1 & H2 & H3). split.
  { unfold squared. rewrite !app_length, !repeat_length. cbn [length]. lia. }
  destruct (parser_rule _ _ _ _ _ Hp) as (r & Hn & _).
  destruct (barren_work n (Pst (squared n) (loc_new [])) []) as (s' & k & Hev & Hs' & Hk & Hnum). { unfold squared. rewrite app_nil_r. reflexivity. }
  assert (Hid : r_id r = [83%N]).
  { destruct barren_means as (r2 & u & l1 & l2 & l3 & l4 & l5 & l6 & l7 & l8 & l9 & Hr & Hid & Hidu & _). destruct Hn as (Hin & K). rewrite Hr in Hin. destruct Hin as [<-|[<-|[]]]; [exact Hid|].
    apply same_name_keyed in K. rewrite Hidu in K. vm_compute in K. discriminate K. }
  destruct (Hev (r_loc r)) as (e & Ho).
  assert (Hm : means (rules_of barren) default_config (txt "S") (stand (text_reader (squared n))) (Match s' e)).
  { rewrite H3. exists r. split; [exact Hn|]. rewrite Hid. exact Ho. }
  assert (HL : labour (rules_of barren) default_config (txt "S") (stand (text_reader (squared n))) k).
  { rewrite H3. exists r. split; [exact Hn|]. rewrite Hid. apply Hk. }
  destruct (parse_complete_api _ _ g _ m false _ _ Hp H1 H2 Hm) as (f0 & Hf). specialize (Hf f0 (le_n _)). cbv iota in Hf. rewrite Hs' in Hf. cbn [andb] in Hf.
  exists f0. split; [eauto|].
  assert (Hne : fst (parser_parse false g f0 m (text_reader (squared n))) <> OutOfFuel) by (rewrite Hf; discriminate).
  rewrite (proj1 (steps_exact _ _ g _ m false f0 _ Hp H1 H2 Hne k) HL). exact Hnum.
Qed.
Print Assumptions C95_productive_needed.
(** [step_bound] is linear in the length. *)
Theorem C95_bound_is_linear : forall rs n, step_bound rs n = step_bound rs 0 + n * (step_bound rs 1 - step_bound rs 0).
Proof. intros rs n. unfold step_bound. nia. Qed.
Print Assumptions C95_bound_is_linear.

(** The rules of C67 meet both conditions; the bound for parentheses, and two counts, one of
    a text that is rejected. *)
Example C95_case : predictive (rules_of calc) number_config (txt "E") /\ productive (rules_of calc) number_config.
Proof. exact C67_calc. Qed.
Definition parens : str := txt "S='(',S,')'|'x';".
Example C95_parens : predictive (rules_of parens) default_config (txt "S") /\ productive (rules_of parens) default_config.
Proof.
  split.
  - apply (C63_checked (fun _ => None)); [vm_compute; reflexivity|discriminate|apply (library_scanners _ (proj2 library_case))].
  - apply (C67_checked (fun _ => None)); [discriminate|vm_compute; reflexivity].
Qed.
Example C95_bound : N.of_nat (step_bound (rules_of parens) 0) = 1731%N /\ N.of_nat (step_bound (rules_of parens) 1) = 6649%N.
Proof. vm_compute. split; reflexivity. Qed.
Example C95_counts : match prepare default_config parens (txt "S") with
  | Some (g, m) => parser_steps false g 300 m (text_reader (txt "((x))")) = 12 /\
      parser_steps false g 300 m (text_reader (txt "((x)")) = 13
  | None => False end.
Proof. vm_compute. split; reflexivity. Qed.
