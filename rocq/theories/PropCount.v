(** Property C78: how many events a parse gives.

    For tidy rules (SpecEvents.v: a bracket leaves no events behind when its body fails) their
    number is at most proportional to the text, with a factor that depends on the syntax
    alone.  For other rules it may double with each character. *)
From Coq Require Import String List NArith Arith Bool Lia Relations.
From Verif Require Import Base Ident Tokenizer Ast Lex Syntax Io Graph Machine SpecText SpecSyntax SpecIo TextFacts SyntaxFacts IoFacts SpecParse SpecMachine SpecEvents SpecTotal SpecCount Pure PureFacts ParseFacts CodeFacts RunFacts RunComplete EvFacts MachineFacts EventFacts TotalFacts FuelFacts DepthFacts CountFacts PropSyntax PropParse PropEvents PropTotal PropDepth.
Import ListNotations.
Open Scope nat_scope.

Lemma remove_shorter : forall n es, length es <= n -> length (remove_pairs es) <= length es.
Proof.
  induction n as [|n IH]; intros es Hn; [destruct es; [cbn; lia|cbn in Hn; lia]|]. destruct es as [|e r]; [cbn; lia|]. cbn in Hn.
  pose proof (IH r ltac:(lia)). destruct e; cbn; try lia. destruct r as [|e2 r2]; [cbn; lia|]. destruct e2; cbn in *; lia.
Qed.
Lemma remove_empty_shorter : forall es, length (remove_empty_pairs es) <= length es.
Proof. intros [|e r]; [cbn; lia|]. cbn. pose proof (remove_shorter _ r (le_n _)). lia. Qed.
Lemma parse_few : forall rs cfg g id m debug fuel rd M evs, parser_for rs cfg g id m -> reader rd -> ending_of rd = None ->
  (forall r, In r rs -> ~ left_recursive rs cfg r) -> Forall (fun r => tidy (NDefs (r_defs r))) rs -> no_forwarding cfg -> frugal M cfg ->
  fst (parser_parse debug g fuel m rd) = Ok evs -> length evs <= event_bound rs M (length (unread rd)).
Proof.
  intros rs cfg g id m debug fuel rd M evs Hp Hr He Hl Ht Hf Hm H. pose proof (parse_sound_api rs cfg g id m debug fuel rd Hp Hr He) as K. rewrite H in K.
  destruct K as (raw & (r & Hn & K) & ->). pose proof (remove_empty_shorter raw) as Hs. inversion K; subst.
  assert (HB : 1 + M <= at_rest rs M) by (apply (idle_up (syntax_weight rs) M 0); lia).
  match goal with X : ev rs cfg (NDefs (r_defs ?q)) ?s0 (Match ?s1 ?e), Y : names _ _ ?q |- _ =>
    pose proof (rule_few rs cfg M Hm Hf Ht (at_rest rs M) (on_the_way rs M) (syntax_weight rs) HB Hl eq_refl eq_refl eq_refl q s0 s1 e (proj1 Y) X) as G end.
  eapply Nat.le_trans; [exact Hs|]. cbn [length]. rewrite app_length. cbn [length]. change (p_rest (stand rd)) with (unread rd) in G. lia.
Qed.
Theorem C78_linear : forall rs cfg g id m debug fuel rd M evs, parser_for rs cfg g id m -> reader rd -> ending_of rd = None ->
  (forall r, In r rs -> ~ left_recursive rs cfg r) -> Forall (fun r => tidy (NDefs (r_defs r))) rs ->
  no_forwarding cfg -> frugal M cfg ->
  fst (parser_parse debug g fuel m rd) = Ok evs -> length evs <= event_bound rs M (length (unread rd)).
Proof. exact parse_few. Qed.
Print Assumptions C78_linear.
(** The scanners of the library give one event at most. *)
Lemma library_frugal : forall cfg, library_config cfg -> frugal 1 cfg.
Proof.
  intros cfg Hl l c s s' evs H. pose proof (Hl l c) as K. destruct (cfg l c); inversion H; subst; cbn; try lia. contradiction.
Qed.
Theorem C78_library : forall rs cfg g id m debug fuel rd evs, parser_for rs cfg g id m -> reader rd -> ending_of rd = None ->
  (forall r, In r rs -> ~ left_recursive rs cfg r) -> Forall (fun r => tidy (NDefs (r_defs r))) rs -> library_config cfg ->
  fst (parser_parse debug g fuel m rd) = Ok evs -> length evs <= event_bound rs 1 (length (unread rd)).
Proof.
  intros rs cfg g id m debug fuel rd evs Hp Hr He Hl Ht Hc H.
  apply (parse_few rs cfg g id m debug fuel rd 1 evs Hp Hr He Hl Ht); [exact (proj2 (proj2 (proj2 (library_scanners cfg Hc))))|apply library_frugal; exact Hc|exact H].
Qed.
Print Assumptions C78_library.

(** A grammar that meets the hypotheses. *)
Definition lists : str := txt "S=P|? n ?;P='(',S,{','},2*[S],')';".
Definition lists_rank (r : rule) : nat := if str_eqb (r_id r) (txt "S") then 2 else 1.
Example lists_tidy : Forall (fun r => tidy (NDefs (r_defs r))) (rules_of lists).
Proof.
  vm_compute. repeat (apply Forall_cons || apply Forall_nil);
  repeat match goal with
    | |- Forall _ (_ :: _) => apply Forall_cons | |- Forall _ [] => apply Forall_nil | |- tidy _ => constructor
    | |- clean (NDefs [_]) => apply cl_defs1 | |- clean (NSeq _) => apply cl_seq | |- clean (NTerm _) => apply cl_term
    | |- clean (NFactor _) => apply cl_factor1 | |- clean (NPrim (PMeta _ _)) => apply cl_meta | |- clean (NPrim (PTerminal _ _)) => apply cl_terminal
    | |- sure _ => constructor end.
Qed.
Example lists_left : forall r, In r (rules_of lists) -> ~ left_recursive (rules_of lists) any_config r.
Proof.
  apply (ranked _ _ lists_rank). intros r r' (Hr & Hs).
  assert (Hn : forall id, names (rules_of lists) id r' -> keyed id = keyed (r_id r')) by (intros id (_ & K); apply same_name_keyed; exact K).
  vm_compute in Hr. destruct Hr as [<-|[<-|[]]].
  all: repeat match goal with
    | X : starts _ _ (NDefs _) _ |- _ => inversion X; clear X; subst
    | X : In _ [_] |- _ => destruct X as [<-|[]]
    | X : In _ (_ :: _) |- _ => destruct X as [<-|X]
    | X : starts _ _ (NSeq _) _ |- _ => inversion X; clear X; subst
    | X : starts _ _ (NTerm _) _ |- _ => inversion X; clear X; subst
    | X : starts _ _ (NFactor _) _ |- _ => inversion X; clear X; subst
    | X : starts _ _ (NPrim _) _ |- _ => inversion X; clear X; subst
    | X : scanned _ _ _ (SForward _ _) |- _ => exfalso; exact (no_forward _ _ _ _ _ X)
    end.
  all: repeat match goal with
    | X : skips _ _ (NTerm _) |- _ => inversion X; clear X; subst
    | X : skips _ _ (NFactor _) |- _ => inversion X; clear X; subst
    | X : skips _ _ (NPrim (PTerminal _ _)) |- _ => inversion X; fail
    end.
  all: match goal with X : names _ _ _ |- _ => pose proof (Hn _ X) as K; destruct X as (X & _); vm_compute in X end;
    match goal with X : _ \/ _ |- _ => destruct X as [<-|[<-|[]]] end; vm_compute in K; try discriminate K; vm_compute; lia.
Qed.

Example C78_bound : forall n, event_bound (rules_of lists) 1 n =
  at_rest (rules_of lists) 1 + on_the_way (rules_of lists) 1 + n * (2 * (on_the_way (rules_of lists) 1 + syntax_weight (rules_of lists) * at_rest (rules_of lists) 1)) /\
  syntax_weight (rules_of lists) = 8.
Proof. intros n. split; [reflexivity|vm_compute; reflexivity]. Qed.
Example C78_case : exists g m, parser_for (rules_of lists) any_config g (txt "S") m /\
  (forall t debug fuel evs, fst (parser_parse debug g fuel m (text_reader t)) = Ok evs -> length evs <= event_bound (rules_of lists) 1 (length t)) /\
  exists evs, fst (parser_parse true g 100 m (text_reader (txt "((n,)nn)"))) = Ok evs /\ length evs = 19.
Proof.
  destruct (prepare any_config lists (txt "S")) as [(g & m)|] eqn:E; [|vm_compute in E; discriminate]. exists g, m.
  pose proof (prepare_ok _ _ _ _ _ E) as Hp. split; [exact Hp|]. split.
  - intros t debug fuel evs H. destruct (text_reader_ok t) as (H1 & H2 & H3).
    replace (length t) with (length (unread (text_reader t))) by (change (unread (text_reader t)) with (p_rest (stand (text_reader t))); rewrite H3; reflexivity).
    exact (parse_few _ _ g _ m debug fuel _ 1 evs Hp H1 H2 lists_left lists_tidy no_forward (library_frugal _ (proj1 library_case)) H).
  - vm_compute in E. injection E as <- <-. eexists. split; vm_compute; reflexivity.
Qed.

(** Not so in general: a bracket whose only alternative fails leaves the events it had
    (machine.rs:55-78, C35), and they are reported with those of the next one. *)
Definition doubling : str := txt "S=['x',S,'y'],['x',S];".
Lemma doubling_rules : exists r l1 l2 l3 l4 l5 l6 l7, rules_of doubling = [r] /\ r_id r = [83%N] /\
  r_defs r = [[Term (Factor 1 (POptional l1 [[Term (Factor 1 (PTerminal l2 [120%N])) None; Term (Factor 1 (PMeta l3 [83%N])) None; Term (Factor 1 (PTerminal l4 [121%N])) None]])) None;
               Term (Factor 1 (POptional l5 [[Term (Factor 1 (PTerminal l6 [120%N])) None; Term (Factor 1 (PMeta l7 [83%N])) None]])) None]].
Proof. vm_compute. eexists _, _, _, _, _, _, _, _. split; [reflexivity|]. split; reflexivity. Qed.
Lemma seq_fails : forall rs cfg t ts s s1 e1 x s2 e2, bare_group t = None -> ev rs cfg (NTerm t) s (Match s1 e1) -> ev rs cfg (NSeq ts) s1 (No x s2 e2) ->
  ev rs cfg (NSeq (t :: ts)) s (No x s2 (e1 ++ e2)).
Proof. intros rs cfg t ts s s1 e1 x s2 e2 Hb H1 H2. exact (ev_seq rs cfg t ts s s1 e1 _ Hb H1 H2). Qed.
Lemma tokens_app : forall a b, length (tokens (a ++ b)) = length (tokens a) + length (tokens b).
Proof. induction a as [|[]]; intros b; cbn; auto. rewrite !app_length, IHa. lia. Qed.
Lemma doubles : forall n l s, p_rest s = repeat 120%N n ->
  exists s' e, ev (rules_of doubling) default_config (NRef l [83%N]) s (Match s' e) /\ p_rest s' = [] /\ 2 ^ n <= S (length (tokens e)).
Proof.
  destruct doubling_rules as (r & l1 & l2 & l3 & l4 & l5 & l6 & l7 & Hr & Hid & Hd). rewrite Hr.
  assert (Hn : names [r] [83%N] r) by (split; [left; reflexivity|apply same_name_keyed; rewrite Hid; reflexivity]).
  induction n as [|n IH]; intros l s Hs.
  - cbn in Hs. assert (N0 : forall c w s', ~ goes s (c :: w) s') by (intros c w s' (H & _); rewrite Hs in H; discriminate).
    exists s. eexists. split; [|split; [exact Hs|cbn; lia]]. eapply ev_ref; [exact Hn|]. rewrite Hd. apply ev_defs_one.
    eapply seq_more; [reflexivity| |].
    + apply ev_term_plain, ev_factor_one, ev_optional. eapply ev_times_stop; [reflexivity|lia|]. apply ev_defs_one. eapply ev_seq_no; [reflexivity|]. apply ev_term_plain, ev_factor_one, ev_terminal_no. apply N0.
    + eapply seq_more; [reflexivity| |apply ev_seq_nil]. apply ev_term_plain, ev_factor_one, ev_optional. eapply ev_times_stop; [reflexivity|lia|]. apply ev_defs_one. eapply ev_seq_no; [reflexivity|]. apply ev_term_plain, ev_factor_one, ev_terminal_no. apply N0.
  - cbn [repeat] in Hs. destruct (one_more _ _ _ Hs) as (s1 & Hg1 & Hr1).
    destruct (IH l3 s1 Hr1) as (s2 & e2 & H2 & Hr2 & Hc2). destruct (IH l7 s1 Hr1) as (s3 & e3 & H3 & Hr3 & Hc3).
    exists s3. eexists. split; [|split; [exact Hr3|]].
    + eapply ev_ref; [exact Hn|]. rewrite Hd. apply ev_defs_one. eapply seq_more; [reflexivity| |].
      * apply ev_term_plain, ev_factor_one, ev_optional. eapply ev_times_stop; [reflexivity|lia|]. apply ev_defs_one.
        eapply seq_fails; [reflexivity|apply ev_term_plain, ev_factor_one, ev_terminal; exact Hg1|].
        eapply seq_fails; [reflexivity|apply ev_term_plain, ev_factor_one, ev_meta; exact H2|].
        eapply ev_seq_no; [reflexivity|]. apply ev_term_plain, ev_factor_one, ev_terminal_no. intros s' (H & _). rewrite Hr2 in H. discriminate.
      * eapply seq_more; [reflexivity| |apply ev_seq_nil]. apply ev_term_plain, ev_factor_one, ev_optional.
        eapply ev_times_more; [reflexivity|discriminate| |apply ev_times_end; lia]. apply ev_defs_one.
        eapply seq_more; [reflexivity|apply ev_term_plain, ev_factor_one, ev_terminal; exact Hg1|].
        eapply seq_more; [reflexivity|apply ev_term_plain, ev_factor_one, ev_meta; exact H3|apply ev_seq_nil].
    + cbn [app tokens length Nat.pow]. repeat (rewrite tokens_app; cbn [app tokens length]). lia.
Qed.
Definition doubling_rank (r : rule) : nat := 0.
Example doubling_left : forall r, In r (rules_of doubling) -> ~ left_recursive (rules_of doubling) default_config r.
Proof.
  apply (ranked _ _ doubling_rank). intros r r' (Hr & Hs).
  vm_compute in Hr. destruct Hr as [<-|[]].
  repeat match goal with
    | X : starts _ _ (NDefs _) _ |- _ => inversion X; clear X; subst
    | X : In _ [_] |- _ => destruct X as [<-|[]]
    | X : starts _ _ (NSeq _) _ |- _ => inversion X; clear X; subst
    | X : starts _ _ (NTerm _) _ |- _ => inversion X; clear X; subst
    | X : starts _ _ (NFactor _) _ |- _ => inversion X; clear X; subst
    | X : starts _ _ (NPrim _) _ |- _ => inversion X; clear X; subst
    end.
  all: repeat match goal with
    | X : skips _ _ (NTerm (Term (Factor 1 (PTerminal _ _)) _)) |- _ => inversion X; clear X; subst
    | X : skips _ _ (NFactor _) |- _ => inversion X; clear X; subst
    | X : skips _ _ (NPrim (PTerminal _ _)) |- _ => inversion X; fail
    end.
Qed.
Theorem C78_linear_refuted : exists g m, parser_for (rules_of doubling) default_config g (txt "S") m /\
  (forall r, In r (rules_of doubling) -> ~ left_recursive (rules_of doubling) default_config r) /\
  forall n, exists fuel evs, fst (parser_parse false g fuel m (text_reader (repeat 120%N n))) = Ok evs /\
    2 ^ n <= S (length (tokens evs)).
Proof.
  destruct (prepare default_config doubling (txt "S")) as [(g & m)|] eqn:E; [|vm_compute in E; discriminate]. exists g, m.
  pose proof (prepare_ok _ _ _ _ _ E) as Hp. split; [exact Hp|]. split; [exact doubling_left|]. intros n.
  destruct (text_reader_ok (repeat 120%N n)) as (H1 & H2 & H3). destruct (parser_rule _ _ _ _ _ Hp) as (r & Hn & _).
  destruct (doubles n (r_loc r) (Pst (repeat 120%N n) (loc_new [])) eq_refl) as (s' & e & Ho & Hs' & Hc).
  assert (Hm : means (rules_of doubling) default_config (txt "S") (stand (text_reader (repeat 120%N n))) (Match s' e)).
  { rewrite H3. exists r. split; [exact Hn|]. destruct doubling_rules as (r2 & l1 & l2 & l3 & l4 & l5 & l6 & l7 & Hr & Hid & _). pose proof (proj1 Hn) as Hin. rewrite Hr in Hin. destruct Hin as [<-|[]]. rewrite Hid. exact Ho. }
  destruct (parse_complete_api _ _ g _ m false _ _ Hp H1 H2 Hm) as (f0 & Hf). specialize (Hf f0 (le_n _)). cbv iota in Hf. rewrite Hs' in Hf. cbn [andb] in Hf.
  exists f0, (remove_empty_pairs e). split; [exact Hf|]. rewrite tokens_filter. exact Hc.
Qed.
Print Assumptions C78_linear_refuted.
Example C78_doubling : parse_case default_config doubling (txt "S") false 100 (text_reader (txt "xx")) =
  Some (Ok [bg 1 1 "S"; tk 4 1 "x"; bg 8 2 "S"; tk 4 2 "x"; tk 16 2 "x"; en 8 3 "S"; tk 16 1 "x"; bg 20 2 "S"; tk 4 2 "x"; tk 16 2 "x"; en 20 3 "S"; en 1 3 "S"]).
Proof. vm_compute. reflexivity. Qed.
