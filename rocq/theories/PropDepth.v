(** Property C77: how deep a parse goes.

    [fuel] bounds the recursion of the model and the rounds of its loops.  Without left
    recursion [depth_bound] (SpecDepth.v) is enough of it: proportional to the text, with a
    factor that depends on the syntax alone. *)
From Coq Require Import String List NArith Arith Bool Lia Relations.
From Verif Require Import Base Ident Tokenizer Ast Lex Syntax Io Graph Machine SpecText SpecSyntax SpecIo TextFacts SyntaxFacts IoFacts SpecParse SpecMachine SpecEvents SpecTotal SpecDepth Pure PureFacts ParseFacts CodeFacts RunFacts RunComplete EvFacts MachineFacts TotalFacts FuelFacts DepthFacts PropSyntax PropParse PropEvents PropTotal.
Import ListNotations.
Open Scope nat_scope.

Theorem C77_linear : forall rs cfg g id m debug rd, parser_for rs cfg g id m -> reader rd -> ending_of rd = None ->
  (forall r, In r rs -> ~ left_recursive rs cfg r) ->
  forall fuel, depth_bound rs (length (unread rd)) <= fuel -> fst (parser_parse debug g fuel m rd) <> OutOfFuel.
Proof. exact parse_linear. Qed.
Print Assumptions C77_linear.
(** So there is one answer, and it is there with that much. *)
Theorem C77_answer : forall rs cfg g id m debug rd fuel, parser_for rs cfg g id m -> reader rd -> ending_of rd = None ->
  (forall r, In r rs -> ~ left_recursive rs cfg r) ->
  fst (parser_parse debug g fuel m rd) <> OutOfFuel ->
  parser_parse debug g fuel m rd = parser_parse debug g (depth_bound rs (length (unread rd))) m rd.
Proof.
  intros rs cfg g id m debug rd fuel Hp Hr He Hl Hf. destruct (Nat.le_ge_cases fuel (depth_bound rs (length (unread rd)))) as [L|L].
  - symmetry. apply parse_more_fuel; assumption.
  - apply parse_more_fuel; [exact L|]. eapply parse_linear; eauto.
Qed.
Print Assumptions C77_answer.
(** The meaning of a rule on a text (SpecParse.v) is decided by that run. *)
Theorem C77_decides : forall rs cfg g id m rd, parser_for rs cfg g id m -> reader rd -> ending_of rd = None ->
  (forall r, In r rs -> ~ left_recursive rs cfg r) ->
  ((exists s' raw, means rs cfg id (stand rd) (Match s' raw) /\ p_rest s' = []) <->
   exists evs, fst (parser_parse false g (depth_bound rs (length (unread rd))) m rd) = Ok evs).
Proof.
  intros rs cfg g id m rd Hp Hr He Hl. pose proof (parse_linear rs cfg g id m false rd Hp Hr He Hl _ (le_n _)) as Hn.
  set (F := depth_bound rs (length (unread rd))) in *. split.
  - intros (s' & raw & Hm & Hs). destruct (parse_complete_api rs cfg g id m false rd _ Hp Hr He Hm) as (f0 & Hf).
    specialize (Hf (f0 + F) ltac:(lia)). cbv iota in Hf. rewrite Hs in Hf. cbn [andb] in Hf.
    rewrite (parse_more_fuel false g F (f0 + F) m rd ltac:(lia) Hn) in Hf. eauto.
  - intros (evs & H). pose proof (parse_sound_api rs cfg g id m false F rd Hp Hr He) as K. rewrite H in K. destruct K as (raw & K & _).
    exists (stand (snd (parser_parse false g F m rd))), raw. split; [exact K|]. exact (proj2 (parse_all_read false g F m rd evs Hr H)).
Qed.
Print Assumptions C77_decides.

(** The bound for the grammar of PropTotal.v, and a run with no more than it. *)
Example C77_bound : forall n, depth_bound (rules_of sums) n = 3 + S n * (4 * S (syntax_size (rules_of sums))) /\
  syntax_size (rules_of sums) = 60.
Proof. intros n. split; vm_compute; reflexivity. Qed.
Example C77_case : exists g m, parser_for (rules_of sums) any_config g (txt "E") m /\ forall t debug,
  fst (parser_parse debug g (depth_bound (rules_of sums) (length t)) m (text_reader t)) <> OutOfFuel.
Proof.
  destruct (prepare any_config sums (txt "E")) as [(g & m)|] eqn:E; [|vm_compute in E; discriminate]. exists g, m.
  pose proof (prepare_ok _ _ _ _ _ E) as Hp. split; [exact Hp|]. intros t debug. destruct (text_reader_ok t) as (H1 & H2 & H3).
  apply (parse_linear _ _ _ _ _ debug _ Hp H1 H2 C37_case). change (unread (text_reader t)) with (p_rest (stand (text_reader t))). rewrite H3. reflexivity.
Qed.

(** No smaller order will do: each parenthesis is a call. *)
Definition nested : str := txt "a='(',a,')'|'x';".
Definition opened (n : nat) : str := repeat 40%N n.
Definition parens (n : nat) : str := opened n ++ [120%N] ++ repeat 41%N n.
Lemma one_more : forall c s rest, p_rest s = c :: rest -> exists s1, goes s [c] s1 /\ p_rest s1 = rest.
Proof.
  intros c s rest H. exists (move 1 s). split; [|unfold move; cbn; rewrite H; reflexivity].
  apply goes_push. unfold move. cbn. rewrite H. split; reflexivity.
Qed.
Lemma deep_run : forall g m, prepare default_config nested (txt "a") = Some (g, m) -> forall n f i evs s rest, i = 1 \/ i = 5 -> p_rest s = opened n ++ rest -> f <= 3 * n ->
  fst (prun g f None (Some i) evs s) = OutOfFuel.
Proof.
  intros g m E. vm_compute in E. injection E as <- _. set (g := Graph _ _ _).
  assert (A5 : exists nx l sym, nth_error (g_instrs g) 5 = Some (Instr nx sym l (StAlias [97%N]))) by (eexists _, _, _; reflexivity).
  assert (A1 : exists nx l sym, nth_error (g_instrs g) 1 = Some (Instr nx sym l (StAlias [97%N]))) by (eexists _, _, _; reflexivity).
  assert (A4 : exists nx l sym, nth_error (g_instrs g) 4 = Some (Instr nx sym l (StOr [2; 3]))) by (eexists _, _, _; reflexivity).
  assert (A2 : exists l sym, nth_error (g_instrs g) 2 = Some (Instr (Some 1) sym l (StTerminal [40%N]))) by (eexists _, _; reflexivity).
  assert (L : g_label g [97%N] = Some 4) by reflexivity. assert (C : g_canonical g [97%N] = Some [97%N]) by reflexivity.
  clearbody g. intros n. induction n as [|n IH]; intros f i evs s rest Hi Hs Hf.
  { destruct f; [reflexivity|lia]. }
  destruct f as [|f]; [reflexivity|].
  assert (Ai : exists nx l sym, nth_error (g_instrs g) i = Some (Instr nx sym l (StAlias [97%N]))) by (destruct Hi as [->| ->]; assumption).
  destruct Ai as (nx & l & sym & Ai). rewrite (run_at g f i nx _ l evs s sym Ai). cbv beta zeta iota. rewrite L, C. rewrite (pbind_ok ploc _ s _ _ eq_refl).
  set (ev0 := EvBegin _ _ _). destruct (prun g f None (Some 4) [ev0] s) as (x & s9) eqn:E4.
  assert (K : x = OutOfFuel); [|subst x; rewrite (pbind_fuel _ _ _ _ E4); reflexivity].
  change x with (fst (x, s9)). rewrite <- E4. clear E4 x s9. destruct f as [|f]; [reflexivity|].
  destruct A4 as (nx4 & l4 & sym4 & A4). rewrite (run_at g f 4 nx4 _ l4 _ s sym4 A4). cbv beta zeta iota.
  destruct (por_loop (fun a => prun g f None (Some a) []) [2; 3] s) as (x & s9) eqn:E4.
  assert (K : x = OutOfFuel); [|subst x; rewrite (pbind_fuel _ _ _ _ E4); reflexivity].
  change x with (fst (x, s9)). rewrite <- E4. clear E4 x s9. cbn [por_loop]. rewrite (pbind_ok pget _ s _ _ eq_refl).
  destruct (prun g f None (Some 2) [] s) as (x & s9) eqn:E4.
  assert (K : x = OutOfFuel); [|subst x; rewrite (pbind_fuel _ _ _ _ E4); reflexivity].
  change x with (fst (x, s9)). rewrite <- E4. clear E4 x s9. destruct f as [|f]; [reflexivity|].
  destruct A2 as (l2 & sym2 & A2). rewrite (run_at g f 2 _ _ l2 _ s sym2 A2). cbv beta zeta iota. unfold pterminal_step.
  destruct (one_more _ s (opened n ++ rest) Hs) as (s1 & Hg1 & Hr1).
  destruct (pprefix_none [40%N] s) as [(s' & A & B)|(A & B)]; [|destruct (A _ Hg1)].
  erewrite pbind_ok. 2:{ rewrite (pbind_ok _ _ _ _ _ B). rewrite (pbind_ok ploc _ s _ _ eq_refl). rewrite (pbind_ok (pskip _) _ s tt _ eq_refl). reflexivity. }
  rewrite (goes_move _ _ _ Hg1). apply (IH f 1 _ s1 rest); [left; reflexivity|exact Hr1|lia].
Qed.
Lemma deep_means : exists r l1 l2 l3 l4, rules_of nested = [r] /\ r_id r = [97%N] /\
  r_defs r = [[Term (Factor 1 (PTerminal l1 [40%N])) None; Term (Factor 1 (PMeta l2 [97%N])) None; Term (Factor 1 (PTerminal l3 [41%N])) None];
              [Term (Factor 1 (PTerminal l4 [120%N])) None]].
Proof. vm_compute. eexists _, _, _, _, _. split; [reflexivity|]. split; reflexivity. Qed.
Lemma seq_more : forall rs cfg t ts s s1 e1 s2 e2, bare_group t = None -> ev rs cfg (NTerm t) s (Match s1 e1) -> ev rs cfg (NSeq ts) s1 (Match s2 e2) ->
  ev rs cfg (NSeq (t :: ts)) s (Match s2 (e1 ++ e2)).
Proof. intros rs cfg t ts s s1 e1 s2 e2 Hb H1 H2. exact (ev_seq rs cfg t ts s s1 e1 _ Hb H1 H2). Qed.
Lemma deep_accepts : forall n l s rest, p_rest s = opened n ++ [120%N] ++ repeat 41%N n ++ rest ->
  exists s' e, ev (rules_of nested) default_config (NRef l [97%N]) s (Match s' e) /\ p_rest s' = rest.
Proof.
  destruct deep_means as (r & l1 & l2 & l3 & l4 & Hr & Hid & Hd). rewrite Hr.
  assert (Hn : names [r] [97%N] r) by (split; [left; reflexivity|apply same_name_keyed; rewrite Hid; reflexivity]).
  induction n as [|n IH]; intros l s rest Hs.
  - cbn in Hs. destruct (one_more _ _ _ Hs) as (s1 & Hg1 & Hr1). eexists s1, _. split; [|exact Hr1]. eapply ev_ref; [exact Hn|]. rewrite Hd.
    apply ev_defs. eapply ev_alts_next.
    + eapply ev_seq_no; [reflexivity|]. apply ev_term_plain, ev_factor_one. apply ev_terminal_no. intros s' (H & _). rewrite Hs in H. discriminate.
    + apply ev_alts_first. eapply seq_more; [reflexivity|apply ev_term_plain, ev_factor_one, ev_terminal; exact Hg1|apply ev_seq_nil].
  - cbn [opened repeat app] in Hs. destruct (one_more _ _ _ Hs) as (s1 & Hg1 & Hr1).
    destruct (IH l2 s1 (41%N :: rest)) as (s2 & e2 & H2 & Hr2).
    { rewrite Hr1. unfold opened. f_equal. cbn [app]. f_equal. change (41%N :: repeat 41%N n ++ rest) with (repeat 41%N (S n) ++ rest).
      replace (S n) with (n + 1) by lia. rewrite repeat_app, <- app_assoc. reflexivity. }
    destruct (one_more _ _ _ Hr2) as (s3 & Hg3 & Hr3). eexists s3, _. split; [|exact Hr3]. eapply ev_ref; [exact Hn|]. rewrite Hd. apply ev_defs. apply ev_alts_first.
    eapply seq_more; [reflexivity|apply ev_term_plain, ev_factor_one, ev_terminal; exact Hg1|].
    eapply seq_more; [reflexivity|apply ev_term_plain, ev_factor_one, ev_meta; exact H2|].
    eapply seq_more; [reflexivity|apply ev_term_plain, ev_factor_one, ev_terminal; exact Hg3|apply ev_seq_nil].
Qed.
Theorem C77_deep : exists g m, parser_for (rules_of nested) default_config g (txt "a") m /\
  forall n, (forall debug fuel, fuel <= 3 * n -> fst (parser_parse debug g fuel m (text_reader (parens n))) = OutOfFuel) /\
    exists fuel evs, fst (parser_parse false g fuel m (text_reader (parens n))) = Ok evs.
Proof.
  destruct (prepare default_config nested (txt "a")) as [(g & m)|] eqn:E; [|vm_compute in E; discriminate]. exists g, m.
  pose proof (prepare_ok _ _ _ _ _ E) as Hp. split; [exact Hp|]. intros n. destruct (text_reader_ok (parens n)) as (H1 & H2 & H3). split.
  - intros debug fuel Hf. destruct (parse_reader debug g fuel m _ H1) as (A & _). rewrite A, H2, H3. unfold pmachine_parse.
    assert (Hm : mc_entry m = 5) by (vm_compute in E; injection E as _ <-; reflexivity). rewrite Hm.
    pose proof (deep_run g m E n fuel 5 [] (Pst (parens n) (loc_new [])) ([120%N] ++ repeat 41%N n) (or_intror eq_refl) eq_refl Hf) as K.
    destruct (prun g fuel None (Some 5) [] (Pst (parens n) (loc_new []))) as (x & s9) eqn:Ex. cbn in K. subst x. rewrite (pbind_fuel _ _ _ _ Ex). reflexivity.
  - destruct (parser_rule _ _ _ _ _ Hp) as (r & Hn & _).
    destruct (deep_accepts n (r_loc r) (Pst (parens n) (loc_new [])) []) as (s' & e & Ho & Hs'). { unfold parens. rewrite app_nil_r. reflexivity. }
    assert (Hm : means (rules_of nested) default_config (txt "a") (stand (text_reader (parens n))) (Match s' e)).
    { rewrite H3. exists r. split; [exact Hn|]. destruct deep_means as (r2 & l1 & l2 & l3 & l4 & Hr & Hid & _). pose proof (proj1 Hn) as Hin. rewrite Hr in Hin. destruct Hin as [<-|[]]. rewrite Hid. exact Ho. }
    destruct (parse_complete_api _ _ g _ m false _ _ Hp H1 H2 Hm) as (f0 & Hf). specialize (Hf f0 (le_n _)). cbv iota in Hf. rewrite Hs' in Hf. cbn [andb] in Hf. eauto.
Qed.
Print Assumptions C77_deep.
