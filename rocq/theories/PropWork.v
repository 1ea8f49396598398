(** Property C94: how long a parse takes.

    [parser_steps] (MachineSteps.v) counts the instructions a parse executes; [labour]
    (SpecWork.v) says from the rules and the text how much there is to do.  They are the
    same number, however the text arrives.  It is not bounded by any polynomial in the
    length of the text: an alternative that shares its beginning with the one tried
    before it does all of that again. *)
From Coq Require Import String List NArith Arith Bool Lia Relations.
From Verif Require Import Base Ident Tokenizer Ast Lex Syntax Io Graph Machine MachineSteps SpecText SpecSyntax SpecIo TextFacts SyntaxFacts IoFacts SpecParse SpecMachine SpecEvents SpecTotal SpecWork Pure PureFacts ParseFacts CodeFacts RunFacts RunComplete EvFacts MachineFacts TotalFacts FuelFacts WorkFacts WorkApi PropSyntax PropParse PropEvents PropTotal PropDepth.
Import ListNotations.
Open Scope nat_scope.

(** A parse that ends executes exactly as many instructions as the rules ask for. *)
Theorem C94_exact : forall rs cfg g id m debug fuel rd, parser_for rs cfg g id m -> reader rd -> ending_of rd = None ->
  fst (parser_parse debug g fuel m rd) <> OutOfFuel ->
  forall k, labour rs cfg id (stand rd) k <-> parser_steps debug g fuel m rd = k.
Proof. intros rs cfg g id m debug fuel rd. exact (steps_exact rs cfg g id m debug fuel rd). Qed.
Print Assumptions C94_exact.
(** So wherever the rules say what becomes of a text, they say how long it takes. *)
Theorem C94_determined : forall rs cfg g id m rd o, parser_for rs cfg g id m -> reader rd -> ending_of rd = None ->
  means rs cfg id (stand rd) o -> exists! k, labour rs cfg id (stand rd) k.
Proof.
  intros rs cfg g id m rd o Hp Hr He Hm. destruct (steps_labour rs cfg g id m false rd o Hp Hr He Hm) as (k & L & _).
  exists k. split; [exact L|]. intros k' L'. exact (labour_fun rs cfg _ _ _ _ _ _ Hp L L').
Qed.
Print Assumptions C94_determined.
(** It is no matter how the text arrives, what was read before, which marks are set and
    whether debug assertions are checked; nor, once the parse ends, how much room it has. *)
Theorem C94_reader : forall g m debug debug' fuel rd rd', reader rd -> reader rd' -> stand rd = stand rd' -> ending_of rd = ending_of rd' ->
  parser_steps debug g fuel m rd = parser_steps debug' g fuel m rd'.
Proof. intros g m debug debug' fuel rd rd' Hr Hr' Hs He. rewrite !steps_pure by assumption. rewrite Hs, He. reflexivity. Qed.
Print Assumptions C94_reader.
Theorem C94_room : forall g m debug fuel fuel' rd, reader rd -> fst (parser_parse debug g fuel m rd) <> OutOfFuel -> fuel <= fuel' ->
  parser_steps debug g fuel' m rd = parser_steps debug g fuel m rd.
Proof. intros g m debug fuel fuel' rd Hr Hf Hle. exact (steps_more_fuel debug g fuel fuel' m rd Hr Hle Hf). Qed.
Print Assumptions C94_room.

(** ** A small syntax that takes exponential time *)
Definition twofold : str := txt "S='(',S,')'|'(',S,']'|'x';".
Definition squared (n : nat) : str := repeat 40%N n ++ [120%N] ++ repeat 93%N n.
Lemma twofold_means : exists r l1 l2 l3 l4 l5 l6 l7, rules_of twofold = [r] /\ r_id r = [83%N] /\
  r_defs r = [[Term (Factor 1 (PTerminal l1 [40%N])) None; Term (Factor 1 (PMeta l2 [83%N])) None; Term (Factor 1 (PTerminal l3 [41%N])) None];
              [Term (Factor 1 (PTerminal l4 [40%N])) None; Term (Factor 1 (PMeta l5 [83%N])) None; Term (Factor 1 (PTerminal l6 [93%N])) None];
              [Term (Factor 1 (PTerminal l7 [120%N])) None]].
Proof. vm_compute. eexists _, _, _, _, _, _, _, _. split; [reflexivity|]. split; reflexivity. Qed.
Lemma other : forall s c d rest s', p_rest s = c :: rest -> c <> d -> ~ goes s [d] s'.
Proof. intros s c d rest s' H Hc (K & _). rewrite H in K. cbn in K. congruence. Qed.
Lemma twofold_work : forall n s rest, p_rest s = repeat 40%N n ++ [120%N] ++ repeat 93%N n ++ rest ->
  exists s' k, (forall l, exists e, ev (rules_of twofold) default_config (NRef l [83%N]) s (Match s' e)) /\ p_rest s' = rest /\
    (forall l, work (rules_of twofold) default_config (NRef l [83%N]) s k) /\ k + 6 = 11 * 2 ^ n.
Proof.
  destruct twofold_means as (r & l1 & l2 & l3 & l4 & l5 & l6 & l7 & Hr & Hid & Hd). rewrite Hr.
  assert (Hn : names [r] [83%N] r) by (split; [left; reflexivity|apply same_name_keyed; rewrite Hid; reflexivity]).
  assert (Lt : forall t l w s s', t = Term (Factor 1 (PTerminal l w)) None -> goes s w s' -> exists e, ev [r] default_config (NTerm t) s (Match s' e)).
  { intros t l w s s' -> Hg. eexists. apply ev_term_plain, ev_factor_one, ev_terminal. exact Hg. }
  assert (Lw : forall l w s, work [r] default_config (NTerm (Term (Factor 1 (PTerminal l w)) None)) s 1).
  { intros l w s. apply wk_term_plain, wk_factor_one, wk_terminal. }
  assert (Ln : forall l w ts s, (forall s', ~ goes s w s') -> exists x s' e, ev [r] default_config (NSeq (Term (Factor 1 (PTerminal l w)) None :: ts)) s (No x s' e)).
  { intros l w ts s Hg. eexists _, _, _. eapply ev_seq_no; [reflexivity|]. apply ev_term_plain, ev_factor_one, ev_terminal_no. exact Hg. }
  assert (Lno : forall l w ts s, (forall s', ~ goes s w s') -> work [r] default_config (NSeq (Term (Factor 1 (PTerminal l w)) None :: ts)) s 1).
  { intros l w ts s Hg. eapply wk_seq_over; [reflexivity|apply ev_term_plain, ev_factor_one, ev_terminal_no; exact Hg|apply over_no|apply Lw]. }
  induction n as [|n IH]; intros s rest Hs.
  - cbn in Hs. destruct (one_more _ _ _ Hs) as (s1 & Hg1 & Hr1). exists s1, 5.
    assert (N1 : forall s', ~ goes s [40%N] s') by (intros s'; eapply other; [exact Hs|discriminate]).
    destruct (Ln l1 [40%N] [Term (Factor 1 (PMeta l2 [83%N])) None; Term (Factor 1 (PTerminal l3 [41%N])) None] s N1) as (x1 & t1 & e1 & A1).
    destruct (Ln l4 [40%N] [Term (Factor 1 (PMeta l5 [83%N])) None; Term (Factor 1 (PTerminal l6 [93%N])) None] s N1) as (x2 & t2 & e2 & A2).
    destruct (Lt _ l7 [120%N] s s1 eq_refl Hg1) as (e3 & A3).
    assert (B3 : exists e, ev [r] default_config (NSeq [Term (Factor 1 (PTerminal l7 [120%N])) None]) s (Match s1 e)) by (eexists; eapply seq_more; [reflexivity|exact A3|apply ev_seq_nil]).
    destruct B3 as (d3 & B3).
    split; [|split; [exact Hr1|split; [|reflexivity]]].
    + intros l. eexists. eapply ev_ref; [exact Hn|]. rewrite Hd. apply ev_defs. eapply ev_alts_next; [exact A1|]. eapply ev_alts_next; [exact A2|]. apply ev_alts_first. exact B3.
    + intros l. change 5 with (1 + (1 + (1 + (1 + (1 + 0))))). eapply wk_ref; [exact Hn|]. rewrite Hd. apply wk_defs.
      eapply wk_alts_next; [exact A1|apply Lno; exact N1|]. eapply wk_alts_next; [exact A2|apply Lno; exact N1|].
      eapply wk_alts_end; [exact B3|discriminate|]. eapply wk_seq; [reflexivity|exact A3|apply Lw|apply wk_seq_nil].
  - cbn [repeat app] in Hs. destruct (one_more _ _ _ Hs) as (s1 & Hg1 & Hr1).
    destruct (IH s1 (93%N :: rest)) as (s2 & k & H2 & Hr2 & Hk & Hnum).
    { rewrite Hr1. f_equal. cbn [app]. f_equal. change (93%N :: repeat 93%N n ++ rest) with (repeat 93%N (S n) ++ rest).
      replace (S n) with (n + 1) by lia. rewrite repeat_app, <- app_assoc. reflexivity. }
    destruct (one_more _ _ _ Hr2) as (s3 & Hg3 & Hr3). exists s3, (1 + (1 + ((1 + (k + 1)) + (1 + (k + (1 + 0)))))).
    assert (N3 : forall s', ~ goes s2 [41%N] s') by (intros s'; eapply other; [exact Hr2|discriminate]).
    destruct (H2 l2) as (e2 & V2). destruct (H2 l5) as (e5 & V5).
    destruct (Lt _ l1 [40%N] s s1 eq_refl Hg1) as (e1 & V1). destruct (Lt _ l4 [40%N] s s1 eq_refl Hg1) as (e4 & V4). destruct (Lt _ l6 [93%N] s2 s3 eq_refl Hg3) as (e6 & V6).
    destruct (Ln l3 [41%N] [] s2 N3) as (x3 & t3 & e3 & V3).
    assert (T2 : ev [r] default_config (NTerm (Term (Factor 1 (PMeta l2 [83%N])) None)) s1 (Match s2 e2)) by (apply ev_term_plain, ev_factor_one, ev_meta; exact V2).
    assert (T5 : ev [r] default_config (NTerm (Term (Factor 1 (PMeta l5 [83%N])) None)) s1 (Match s2 e5)) by (apply ev_term_plain, ev_factor_one, ev_meta; exact V5).
    assert (A1 : exists x t e, ev [r] default_config (NSeq [Term (Factor 1 (PTerminal l1 [40%N])) None; Term (Factor 1 (PMeta l2 [83%N])) None; Term (Factor 1 (PTerminal l3 [41%N])) None]) s (No x t e)).
    { eexists _, _, _. eapply (ev_seq _ _ _ _ s s1 e1 (No _ _ _)); [reflexivity|exact V1|]. eapply (ev_seq _ _ _ _ s1 s2 e2 (No _ _ _)); [reflexivity|exact T2|]. exact V3. }
    destruct A1 as (x1 & t1 & d1 & A1).
    assert (A2 : exists e, ev [r] default_config (NSeq [Term (Factor 1 (PTerminal l4 [40%N])) None; Term (Factor 1 (PMeta l5 [83%N])) None; Term (Factor 1 (PTerminal l6 [93%N])) None]) s (Match s3 e)).
    { eexists. eapply seq_more; [reflexivity|exact V4|]. eapply seq_more; [reflexivity|exact T5|]. eapply seq_more; [reflexivity|exact V6|apply ev_seq_nil]. }
    destruct A2 as (d2 & A2).
    split; [|split; [exact Hr3|split]].
    + intros l. eexists. eapply ev_ref; [exact Hn|]. rewrite Hd. apply ev_defs. eapply ev_alts_next; [exact A1|]. apply ev_alts_first. exact A2.
    + intros l. eapply wk_ref; [exact Hn|]. rewrite Hd. apply wk_defs. eapply wk_alts_next; [exact A1| |].
      * eapply wk_seq; [reflexivity|exact V1|apply Lw|]. eapply wk_seq; [reflexivity|exact T2|apply wk_term_plain, wk_factor_one, wk_meta, Hk|]. apply Lno. exact N3.
      * eapply wk_alts_end; [exact A2|discriminate|]. eapply wk_seq; [reflexivity|exact V4|apply Lw|]. eapply wk_seq; [reflexivity|exact T5|apply wk_term_plain, wk_factor_one, wk_meta, Hk|].
        eapply wk_seq; [reflexivity|exact V6|apply Lw|apply wk_seq_nil].
    + cbn [Nat.pow]. lia.
Qed.
(** The text has [2n + 1] characters and is accepted; it takes [11 * 2^n - 6] instructions. *)
Theorem C94_exponential : exists g m, parser_for (rules_of twofold) default_config g (txt "S") m /\ forall n,
  length (squared n) = 2 * n + 1 /\
  exists fuel, (exists evs, fst (parser_parse false g fuel m (text_reader (squared n))) = Ok evs) /\
    parser_steps false g fuel m (text_reader (squared n)) + 6 = 11 * 2 ^ n.
Proof.
  destruct (prepare default_config twofold (txt "S")) as [(g & m)|] eqn:E; [|vm_compute in E; discriminate]. exists g, m.
  pose proof (prepare_ok _ _ _ _ _ E) as Hp. split; [exact Hp|]. intros n. destruct (text_reader_ok (squared n)) as (H1 & H2 & H3). split.
  { unfold squared. rewrite !app_length, !repeat_length. cbn [length]. lia. }
  destruct (parser_rule _ _ _ _ _ Hp) as (r & Hn & _).
  destruct (twofold_work n (Pst (squared n) (loc_new [])) []) as (s' & k & Hev & Hs' & Hk & Hnum). { unfold squared. rewrite app_nil_r. reflexivity. }
  assert (Hid : r_id r = [83%N]). { destruct twofold_means as (r2 & l1 & l2 & l3 & l4 & l5 & l6 & l7 & Hr & Hid & _). pose proof (proj1 Hn) as Hin. rewrite Hr in Hin. destruct Hin as [<-|[]]. exact Hid. }
  destruct (Hev (r_loc r)) as (e & Ho).
  assert (Hm : means (rules_of twofold) default_config (txt "S") (stand (text_reader (squared n))) (Match s' e)).
  { rewrite H3. exists r. split; [exact Hn|]. rewrite Hid. exact Ho. }
  assert (HL : labour (rules_of twofold) default_config (txt "S") (stand (text_reader (squared n))) k).
  { rewrite H3. exists r. split; [exact Hn|]. rewrite Hid. apply Hk. }
  destruct (parse_complete_api _ _ g _ m false _ _ Hp H1 H2 Hm) as (f0 & Hf). specialize (Hf f0 (le_n _)). cbv iota in Hf. rewrite Hs' in Hf. cbn [andb] in Hf.
  exists f0. split; [eauto|].
  assert (Hne : fst (parser_parse false g f0 m (text_reader (squared n))) <> OutOfFuel) by (rewrite Hf; discriminate).
  rewrite (proj1 (steps_exact _ _ g _ m false f0 _ Hp H1 H2 Hne k) HL). exact Hnum.
Qed.
Print Assumptions C94_exponential.
(** No polynomial bounds the time of all parses, not even of one syntax. *)
Lemma two_beats : forall n, n < 2 ^ n.
Proof. induction n as [|n IH]; [cbn; lia|]. cbn [Nat.pow]. lia. Qed.
Lemma power_beats : forall c d, exists n, c * (2 * n + 1) ^ d + 6 < 2 ^ n.
Proof.
  (* take n = 2^j: then 2n+1 <= 2^(j+2) and the left side is at most 2^(c + d(j+2) + 3) *)
  intros c d.
  assert (Q : exists j, c + d * (j + 2) + 3 < 2 ^ j).
  { exists (2 * (c + d + 5)). set (a := c + d + 5).
    assert (L : c + d * (2 * a + 2) + 3 < 4 * a * a) by (unfold a; nia).
    assert (S2 : 2 * a <= 2 ^ a). { unfold a. replace (c + d + 5) with (1 + (c + d + 4)) by lia. rewrite Nat.pow_add_r. change (2 ^ 1) with 2. pose proof (two_beats (c + d + 4)). lia. }
    replace (2 * a) with (a + a) in L |- * by lia. rewrite Nat.pow_add_r. pose proof (Nat.mul_le_mono _ _ _ _ S2 S2) as M.
    replace (2 * a * (2 * a)) with (4 * a * a) in M by ring.
    lia. }
  destruct Q as (j & Q). exists (2 ^ j).
  assert (B : 2 * 2 ^ j + 1 <= 2 ^ (j + 2)). { rewrite Nat.pow_add_r. change (2 ^ 2) with 4. pose proof (two_beats j). lia. }
  assert (P : (2 * 2 ^ j + 1) ^ d <= 2 ^ (d * (j + 2))). { rewrite (Nat.mul_comm d), Nat.pow_mul_r. apply Nat.pow_le_mono_l. exact B. }
  apply Nat.le_lt_trans with (2 ^ (c + d * (j + 2) + 3)).
  - rewrite !Nat.pow_add_r. change (2 ^ 3) with 8. pose proof (two_beats c). pose proof (two_beats (d * (j + 2))). nia.
  - apply Nat.pow_lt_mono_r; [lia|exact Q].
Qed.
Theorem C94_polynomial_refuted : exists rs cfg g id m, parser_for rs cfg g id m /\
  forall c d, exists t fuel evs, fst (parser_parse false g fuel m (text_reader t)) = Ok evs /\
    c * length t ^ d < parser_steps false g fuel m (text_reader t).
Proof.
  destruct C94_exponential as (g & m & Hp & H). exists (rules_of twofold), default_config, g, (txt "S"), m. split; [exact Hp|].
  intros c d. destruct (power_beats c d) as (n & Hn). destruct (H n) as (Hl & fuel & (evs & Hok) & Hk). exists (squared n), fuel, evs. split; [exact Hok|].
  rewrite Hl. lia.
Qed.
Print Assumptions C94_polynomial_refuted.

(** The count on a reader: two levels, 38 instructions. *)
Example C94_case : match prepare default_config twofold (txt "S") with
  | Some (g, m) => parser_steps false g 100 m (text_reader (squared 2)) = 38 /\
      (exists evs, fst (parser_parse false g 100 m (text_reader (squared 2))) = Ok evs)
  | None => False end.
Proof. vm_compute. split; [reflexivity|]. eexists. reflexivity. Qed.
