(** The parser over the reader with integers of their width agrees with the unbounded one
    as long as the numbers fit. *)
From Coq Require Import String List NArith Arith Bool Lia.
From Verif Require Import Base SpecTree SpecNarrow CodeFacts Ident Tokenizer Ast Lex Syntax Io Graph Machine SpecText SpecIo TextFacts TokRun IoFacts Narrow NarrowMachine NarrowFacts NarrowIo.
Import ListNotations.
Open Scope N_scope.

Section Run.
Variable debug : bool.
Variable g : graph.
(** The counts of the repetitions are [u32]s. *)
Definition narrow_graph : Prop :=
  Forall (fun i => match i_step i with StRepetition _ max _ => max <= u32_max | _ => True end) (g_instrs g).

Ltac ag := first [apply agree_ret|apply agree_fuel|apply agree_loc|apply agree_mark|apply agree_reset|apply agree_unmark|apply agree_read1
  |apply agree_read_chars|apply agree_is_eof|apply agree_prefix|apply agree_peek|apply agree_skip|apply agree_bind; [|intros ?]].

Lemma agree_fail : forall A e, agree (@fail A e) (fail64 e).
Proof. intros A e K L r HK HL H. split; [reflexivity|exact H]. Qed.
Lemma agree_crash : forall A e, agree (@crash A e) (crash64 e).
Proof. intros A e K L r HK HL H. split; [reflexivity|exact H]. Qed.
Lemma agree_stream : agree (stream_prefix debug) (stream_prefix64 debug).
Proof. unfold stream_prefix, stream_prefix64. ag; [ag|]. destruct a; [ag|]. ag; ag. Qed.
Lemma agree_err : forall cur, agree (err_expected debug g cur) (err_expected64 debug g cur).
Proof.
  intros cur. unfold err_expected, err_expected64. ag; [ag|]. intros K L r HK HL H.
  destruct (agree_stream K L r HK HL H) as (E & T). rewrite E. cbn [obind]. split; [reflexivity|].
  destruct (stream_prefix debug r) as ([x|e|p|] & r'); exact T.
Qed.
Lemma agree_sprog : forall p own, agree (run_sprog debug p own) (run_sprog64 debug p own).
Proof.
  induction p; intros own; cbn [run_sprog run_sprog64]; try (ag; [ag|auto]); try ag; try apply agree_fail; auto.
  - destruct (skipn i own); [auto|]. ag; [ag|auto].
  - destruct (skipn i own); [auto|]. ag; [ag|auto].
Qed.
Lemma agree_chars_loop : forall f pred max n, agree (chars_loop debug f pred max n) (chars_loop64 debug f pred max n).
Proof.
  induction f as [|f IH]; intros pred max n; [ag|]. cbn [chars_loop chars_loop64].
  destruct (match max with Some m => n <? m | None => true end); [|ag]. ag; [ag|]. ag; [ag|]. destruct a0 as [c|]; [|ag].
  destruct (negb (pred c)); [ag; ag|]. ag; [ag|]. ag; [apply IH|ag].
Qed.
Lemma agree_chars : forall f pred min max def, agree (chars_scan debug f pred min max def) (chars_scan64 debug f pred min max def).
Proof.
  intros. unfold chars_scan, chars_scan64. ag; [ag|]. ag; [ag|]. ag; [apply agree_chars_loop|].
  match goal with |- context [if ?b then _ else _] => destruct b end; [ag; ag|ag].
Qed.
Lemma agree_regex : forall find def, agree (regex_scan debug find def) (regex_scan64 debug find def).
Proof.
  intros. unfold regex_scan, regex_scan64. ag; [ag|]. ag; [ag|]. destruct (find a0) as [([|k] & len)|]; [|ag|ag].
  match goal with |- context [if ?b then _ else _] => destruct b end; [ag; [ag|apply agree_fail]|]. ag; ag.
Qed.
Lemma agree_special : forall f sc def, agree (special_scan debug f sc def) (special_scan64 debug f sc def).
Proof. intros f [n|pred mn mx|n fd|n p] def; cbn [special_scan special_scan64]; [ag|apply agree_chars|apply agree_regex|apply agree_sprog]. Qed.

Lemma agree_rep : forall sub sub64, (forall evs, agree (sub evs) (sub64 evs)) -> forall f mn mx i temp, mx <= u32_max ->
  agree (rep_loop debug sub f mn mx i temp) (rep_loop64 debug sub64 f mn mx i temp).
Proof.
  intros sub sub64 Hs. induction f as [|f IH]; intros mn mx i temp Hm; [ag|]. cbn [rep_loop rep_loop64].
  destruct (N.ltb_spec i mx) as [Hi|]; [|ag]. ag; [ag|]. ag; [ag|]. ag; [apply Hs|]. destruct a1 as (p & t). destruct p as [|e].
  - ag; [ag|]. match goal with |- context [if ?b then _ else _] => destruct b end; [apply agree_fail|].
    intros K L r HK HL H. unfold mbind64, inc_u32. destruct (N.leb_spec (i + 1) u32_max); [|lia]. apply IH; assumption.
  - destruct (i <? mn); [ag|]. ag; ag.
Qed.
Lemma agree_or : forall sub sub64, (forall a, agree (sub a) (sub64 a)) -> forall subs, agree (or_loop debug sub subs) (or_loop64 debug sub64 subs).
Proof.
  intros sub sub64 Hs. induction subs as [|a subs IH]; [ag|]. cbn [or_loop or_loop64]. ag; [ag|]. ag; [apply Hs|]. destruct a1 as (p & t).
  destruct p; [ag|]. ag; [ag|]. ag; [exact IH|ag].
Qed.
Lemma read1_size : forall K L r c r', K < u64_limit -> L < u64_limit -> thin K L r -> m_read debug r = (Ok c, r') ->
  ahead r' + (match c with Some _ => 1 | None => 0 end) <= ahead r.
Proof.
  intros K L r c r' HK HL H E. unfold m_read, mbind in E. destruct (read_fits debug 1 K L r HK HL H) as (_ & _ & Hr).
  destruct (m_read_chars debug 1 r) as ([s|e|p|] & r1); try discriminate. specialize (Hr s r1 eq_refl). cbn in E. injection E as <- <-.
  unfold size in Hr. destruct s; cbn [hd_error length] in *; lia.
Qed.
Lemma agree_capture : forall f e, agree (capture_loop debug f e) (capture_loop64 debug f e).
Proof.
  induction f as [|f IH]; intros e; [ag|]. cbn [capture_loop capture_loop64]. ag; [ag|].
  match goal with |- context [if ?b then _ else _] => destruct b end; [|ag]. ag; [ag|]. ag; [apply IH|ag].
Qed.
Lemma capture_size : forall f e K L r s r', K < u64_limit -> L < u64_limit -> thin K L r ->
  capture_loop debug f e r = (Ok s, r') -> size s <= ahead r.
Proof.
  induction f as [|f IH]; intros e K L r s r' HK HL H E; [discriminate|]. cbn [capture_loop] in E. unfold mbind at 1 in E. cbn [m_location] in E.
  match type of E with context [if ?b then _ else _] => destruct b end.
  - unfold mbind at 1 in E. destruct (agree_read1 debug K L r HK HL H) as (_ & T). destruct (m_read debug r) as ([c|x|p|] & r1) eqn:Er; try discriminate.
    cbn [snd] in T. pose proof (read1_size K L r c r1 HK HL H Er) as Hz. unfold mbind in E.
    destruct (capture_loop debug f e r1) as ([s1|x|p|] & r2) eqn:Ec; try discriminate. cbn in E. injection E as <- <-.
    specialize (IH e K L r1 s1 r2 HK HL T Ec). destruct c; unfold size in *; cbn [length]; lia.
  - cbn in E. injection E as <- <-. unfold size. cbn [length]. lia.
Qed.
Lemma bind_at : forall A B (m : M A) m64 (f : A -> M B) f64 K L r, m64 r = Some (m r) /\ thin K L (snd (m r)) ->
  (forall a r', m r = (Ok a, r') -> thin K L r' -> f64 a r' = Some (f a r') /\ thin K L (snd (f a r'))) ->
  mbind64 m64 f64 r = Some (mbind m f r) /\ thin K L (snd (mbind m f r)).
Proof.
  intros A B m m64 f f64 K L r (E & T) Hf. unfold mbind, mbind64. rewrite E.
  destruct (m r) as ([a|e|p|] & r'); cbn [snd] in T; [apply Hf; [reflexivity|exact T]|split; [reflexivity|exact T]..].
Qed.
Lemma thin_more : forall K K' L r, thin K L r -> K <= K' -> thin K' L r.
Proof. intros K K' L r [H1 H2 H3 H4] Hk. constructor; try assumption. lia. Qed.
Lemma thin_own : forall K L r, thin K L r -> thin (total r) L r.
Proof. intros K L r [H1 H2 H3 H4]. constructor; try assumption. lia. Qed.
Lemma mark_at : forall r m r', m_mark debug r = (Ok m, r') -> m = ub_position (mr_ub r) /\ ahead r' = ahead r.
Proof.
  intros r m r' H. unfold m_mark, with_ub, ub_mark in H. match type of H with context [if ?b then _ else _] => destruct b end; [discriminate|].
  injection H as <- <-. split; reflexivity.
Qed.
Lemma agree_except : forall sub sub64, (forall a evs, agree (sub a evs) (sub64 a evs)) -> forall f addr factor exc evs,
  agree (except_scan debug g sub f addr factor exc evs) (except_scan64 debug g sub64 f addr factor exc evs).
Proof.
  intros sub sub64 Hs f addr factor exc evs K L r HK HL H. pose proof (thin_own K L r H) as H0. pose proof (th_total K L r H) as Ht.
  enough (G : except_scan64 debug g sub64 f addr factor exc evs r = Some (except_scan debug g sub f addr factor exc evs r) /\
    thin (total r) L (snd (except_scan debug g sub f addr factor exc evs r))).
  { destruct G as (G1 & G2). split; [exact G1|]. eapply thin_more; [exact G2|exact Ht]. }
  assert (HK0 : total r < u64_limit) by lia. unfold except_scan, except_scan64.
  apply bind_at; [apply agree_loc; assumption|]. intros begin r0 E0 _. injection E0 as <- <-.
  apply bind_at; [apply agree_mark; assumption|]. intros m r1 E1 H1. destruct (mark_at _ _ _ E1) as (Em & _).
  apply bind_at; [apply Hs; assumption|]. intros (p & temp) r2 _ H2. destruct p as [|e].
  2:{ apply bind_at; [apply agree_reset; assumption|]. intros n r3 _ H3. apply agree_ret; assumption. }
  apply bind_at; [apply agree_loc; assumption|]. intros end_ r2' E2 _. injection E2 as <- <-.
  destruct (reset_fits m (total r) L r2 HK0 HL H2) as (R1 & R2 & R3).
  apply bind_at; [split; assumption|]. intros n r3 E3 H3. specialize (R3 n r3 E3).
  apply bind_at; [apply agree_mark; assumption|]. intros m2 r4 E4 H4. destruct (mark_at _ _ _ E4) as (_ & A4).
  apply bind_at; [apply agree_capture; assumption|]. intros buffer r5 E5 H5. pose proof (capture_size _ _ _ _ _ _ _ HK0 HL H4 E5) as S5.
  apply bind_at; [apply agree_loc; assumption|]. intros l r6 E6 _. injection E6 as <- <-.
  match goal with |- context [if ?b then _ else _] => destruct b end; [apply agree_crash; assumption|].
  assert (Hsz : size buffer <= ahead r).
  { pose proof (th_total _ _ _ H2) as T2. pose proof (th_next _ _ _ H) as N0. rewrite A4, R3, Em in S5. unfold ahead, ub_position, total in *. lia. }
  assert (Hsub : thin (size (concat (s_chunks (Src [buffer] None)))) L (mr_of_text (ub_loc (mr_ub r)) buffer)).
  { unfold mr_of_text. apply thin_new. cbn [s_chunks concat]. rewrite app_nil_r. eapply below_le; [exact (th_loc _ _ _ H)|exact Hsz]. }
  cbn [s_chunks concat] in Hsub. rewrite app_nil_r in Hsub.
  assert (Hbs : size buffer < u64_limit) by (unfold ahead, total in *; lia).
  set (test := mbind (sub exc []) (fun '(p, _) => match p with Proceed => m_is_eof debug | NotThisWay _ => ret false end)).
  set (test64 := mbind64 (sub64 exc []) (fun '(p, _) => match p with Proceed => m_is_eof64 debug | NotThisWay _ => ret64 false end)).
  assert (At : agree test test64).
  { unfold test, test64. ag; [apply Hs|]. destruct a as ([|e] & es); ag. }
  destruct (At _ _ _ Hbs HL Hsub) as (Et & _). cbn beta. rewrite Et. cbn [obind]. clear Et.
  destruct (fst (test (mr_of_text (ub_loc (mr_ub r)) buffer))) as [[|]|e|x|].
  - assert (Ae : agree (mbind (m_reset m2) (fun _ => mbind (err_expected debug g (Some addr)) (fun e => ret (NotThisWay e, evs))))
      (mbind64 (m_reset64 m2) (fun _ => mbind64 (err_expected64 debug g (Some addr)) (fun e => ret64 (NotThisWay e, evs))))).
    { ag; [ag|]. ag; [apply agree_err|ag]. }
    apply Ae; assumption.
  - apply agree_ret; assumption.
  - apply agree_fail; assumption.
  - apply agree_crash; assumption.
  - apply agree_fuel; assumption.
Qed.
Lemma agree_special_step : forall sub sub64, (forall a evs, agree (sub a evs) (sub64 a evs)) -> forall f addr ins sc evs,
  agree (special_step debug g sub f addr ins sc evs) (special_step64 debug g sub64 f addr ins sc evs).
Proof.
  intros sub sub64 Hs f addr ins sc evs. unfold special_step, special_step64. ag; [ag|]. ag; [apply agree_special|]. destruct a0 as [es| |id].
  - ag; ag.
  - ag; [ag|]. ag; [apply agree_err|ag].
  - destruct (g_label g id); [|ag; [ag|]; ag; [ag|apply agree_fail]]. ag; [ag|]. ag; [apply Hs|]. destruct a1. ag.
Qed.
Lemma agree_terminal : forall addr ins s evs, agree (terminal_step debug g addr ins s evs) (terminal_step64 debug g addr ins s evs).
Proof.
  intros. unfold terminal_step, terminal_step64. ag; [ag|]. destruct a; [ag; [ag|]; ag; ag|]. ag; [apply agree_err|ag].
Qed.
Lemma agree_run : narrow_graph -> forall f next evs, agree (run debug g f next evs) (run64 debug g f next evs).
Proof.
  intros Hg. induction f as [|f IH]; intros next evs; [ag|]. cbn [run run64]. destruct next as [addr|]; [|ag].
  destruct (nth_error (g_instrs g) addr) as [ins|] eqn:En; [|apply agree_crash].
  assert (Hi := Forall_forall (fun i => match i_step i with StRepetition _ max _ => max <= u32_max | _ => True end) (g_instrs g)).
  destruct Hi as (Hi & _). specialize (Hi Hg ins (nth_error_In _ _ En)).
  assert (Hc : forall pe : prospect * list event, agree
    (let '(p, evs) := pe in match p with NotThisWay e => ret (NotThisWay e, evs) | Proceed => run debug g f (i_next ins) evs end)
    (let '(p, evs) := pe in match p with NotThisWay e => ret64 (NotThisWay e, evs) | Proceed => run64 debug g f (i_next ins) evs end)).
  { intros ([|e] & es); [apply IH|ag]. }
  destruct (i_step ins) as [mn mx s|subs|s|sc| |factor exc|id].
  - ag; [apply agree_rep; [intros; apply IH|exact Hi]|]. destruct a; [ag|apply IH].
  - ag; [apply agree_or; intros; apply IH|]. destruct a as [es|t]; [|apply IH]. destruct (pick_error (rev es)) as [err|]; [|apply agree_crash].
    ag; [ag|]. destruct (loc_eqb (e_loc err) a); [|ag]. ag; [apply agree_err|ag].
  - ag; [apply agree_terminal|apply Hc].
  - ag; [apply agree_special_step; intros; apply IH|apply Hc].
  - apply IH.
  - ag; [apply agree_except; intros; apply IH|apply Hc].
  - destruct (g_label g id); [|apply agree_crash]. destruct (g_canonical g id); [|apply agree_crash]. ag; [ag|]. ag; [apply IH|].
    destruct a0 as ([|e] & t); [|ag]. ag; [ag|apply IH].
Qed.
Lemma agree_machine : narrow_graph -> forall f entry, agree (machine_parse debug g f entry) (machine_parse64 debug g f entry).
Proof.
  intros Hg f entry. unfold machine_parse, machine_parse64. ag; [apply agree_run; exact Hg|]. destruct a as ([|e] & es); [|apply agree_fail].
  ag; [ag|]. destruct a; [match goal with |- context [if ?b then _ else _] => destruct b end; [apply agree_crash|ag]|]. ag; [apply agree_err|apply agree_fail].
Qed.
End Run.

(** * The graph of rules with [u32] counts *)
Definition narrow_instr (i : instr) : Prop := match i_step i with StRepetition _ max _ => max <= u32_max | _ => True end.
Section Graph.
Variable cfg : config.
Definition keeps (x : list instr -> option nat -> res (list instr * nat)) : Prop :=
  forall L next L' i, Forall narrow_instr L -> x L next = Ok (L', i) -> Forall narrow_instr L'.
Lemma push_keeps : forall L x L' i, Forall narrow_instr L -> narrow_instr x -> push_instr L x = Ok (L', i) -> Forall narrow_instr L'.
Proof. intros L x L' i HL Hx H. apply push_ok in H. injection H as -> _. apply Forall_app. split; [exact HL|]. constructor; [exact Hx|constructor]. Qed.
Lemma factor_keeps : forall f, (u32_primary (f_prim f) = true -> keeps (reg_primary cfg (f_prim f))) -> u32_factor f = true -> keeps (reg_factor cfg f).
Proof.
  intros [n p] Hp Hf. unfold u32_factor in Hf. cbn [f_rep f_prim] in *. apply andb_true_iff in Hf as (Hn & Hf). specialize (Hp Hf). apply N.leb_le in Hn.
  intros L next L' i HL H. unfold reg_factor in H. cbn [f_rep f_prim] in H. destruct (n =? 1); [eapply Hp; eassumption|].
  apply bind_ok in H as ((L1 & sub) & H1 & H2). eapply push_keeps; [| |exact H2]; [eapply Hp; eassumption|exact Hn].
Qed.
Definition P_u32 (p : primary) : Prop := u32_primary p = true -> keeps (reg_primary cfg p).
Lemma term_keeps : forall t, P_term P_u32 t -> u32_term t = true -> keeps (reg_term cfg t).
Proof.
  intros [f [e|]] (Hf & He) Ht; unfold u32_term in Ht; cbn [t_exc t_factor] in *; apply andb_true_iff in Ht as (H1 & H2); intros L next L' i HL H; unfold reg_term in H; cbn [t_exc t_factor] in H.
  - apply bind_ok in H as ((L1 & fa) & A & H). apply bind_ok in H as ((L2 & ex) & B & H).
    eapply push_keeps; [| |exact H]; [|exact I]. eapply (factor_keeps e He H2); [|exact B]. eapply (factor_keeps f Hf H1); eassumption.
  - eapply (factor_keeps f Hf H1); eassumption.
Qed.
Lemma terms_keep : forall ts, Forall (P_term P_u32) ts -> forallb u32_term ts = true -> forall L next L' o, Forall narrow_instr L ->
  reg_terms cfg ts L next = Ok (L', o) -> Forall narrow_instr L'.
Proof.
  induction ts as [|t ts IH]; intros HF Hu L next L' o HL H; [injection H as <- <-; exact HL|].
  cbn [forallb] in Hu. apply andb_true_iff in Hu as (Hu1 & Hu2). cbn [reg_terms] in H. apply bind_ok in H as ((L1 & o1) & A & H). apply bind_ok in H as ((L2 & j) & B & H).
  injection H as <- <-. eapply (term_keeps t (Forall_inv HF) Hu1); [|exact B]. eapply (IH (Forall_inv_tail HF) Hu2); eassumption.
Qed.
Lemma single_keeps : forall ts, Forall (P_term P_u32) ts -> forallb u32_term ts = true -> keeps (reg_single cfg ts).
Proof.
  intros ts HF Hu L next L' i HL H. destruct ts as [|t ts]; [discriminate|]. unfold reg_single in H. apply bind_ok in H as ((L1 & o) & A & H).
  destruct o; [|discriminate]. injection H as <- _. eapply terms_keep; eassumption.
Qed.
Lemma alts_keep : forall ds, Forall (Forall (P_term P_u32)) ds -> u32_defs ds = true -> forall L next L' a b, Forall narrow_instr L ->
  reg_alts cfg ds L next = Ok (L', a, b) -> Forall narrow_instr L'.
Proof.
  induction ds as [|d ds IH]; intros HF Hu L next L' a b HL H; [injection H as <- <- <-; exact HL|].
  unfold u32_defs in Hu. cbn [forallb] in Hu. apply andb_true_iff in Hu as (Hu1 & Hu2). cbn [reg_alts] in H. apply bind_ok in H as ((L1 & j) & A & H).
  destruct (nth_error L1 j); [|discriminate]. apply bind_ok in H as (((L2 & a2) & b2) & B & H). injection H as <- <- <-.
  eapply (IH (Forall_inv_tail HF) Hu2); [|exact B]. eapply (single_keeps d (Forall_inv HF) Hu1); eassumption.
Qed.
Lemma defs_keep : forall ds, Forall (Forall (P_term P_u32)) ds -> u32_defs ds = true -> keeps (reg_defs cfg ds).
Proof.
  intros ds HF Hu L next L' i HL H.
  assert (G : (let? (steps, subs, syms) := reg_alts cfg ds L next in
     match rev steps with [] => Panic PUnwrap | lst :: _ => push_instr steps (Instr next (parallel_notation syms (of_string "or")) (i_def lst) (StOr subs)) end) = Ok (L', i) -> Forall narrow_instr L').
  { intros H2. apply bind_ok in H2 as (((L1 & subs) & syms) & A & H2). destruct (rev L1); [discriminate|].
    eapply push_keeps; [| |exact H2]; [|exact I]. eapply alts_keep; eassumption. }
  destruct ds as [|d [|d2 ds]]; [exact (G H)| |exact (G H)].
  unfold u32_defs in Hu. cbn [forallb] in Hu. apply andb_true_iff in Hu as (Hu1 & _). eapply (single_keeps d (Forall_inv HF) Hu1); eassumption.
Qed.
Lemma primary_keeps : forall p, P_u32 p.
Proof.
  induction p as [l d IH|l d IH|l d IH|l id|l s|l s|l] using primary_nested; intros Hu L next L' i HL H.
  - rewrite reg_primary_optional in H. apply bind_ok in H as ((L1 & sub) & A & H). eapply push_keeps; [| |exact H]; [|discriminate]. eapply (defs_keep d IH Hu); eassumption.
  - rewrite reg_primary_repeated in H. apply bind_ok in H as ((L1 & sub) & A & H). eapply push_keeps; [| |exact H]; [|discriminate]. eapply (defs_keep d IH Hu); eassumption.
  - rewrite reg_primary_grouped in H. eapply (defs_keep d IH Hu); eassumption.
  - eapply push_keeps; [exact HL| |exact H]. exact I.
  - eapply push_keeps; [exact HL| |exact H]. exact I.
  - eapply push_keeps; [exact HL| |exact H]. exact I.
  - eapply push_keeps; [exact HL| |exact H]. exact I.
Qed.
Lemma rules_keep : forall sy rs g g', u32_rules rs = true -> Forall narrow_instr (g_instrs g) -> compile_rules cfg sy rs g = Ok g' -> Forall narrow_instr (g_instrs g').
Proof.
  intros sy. induction rs as [|r rs IH]; intros g g' Hu HL H; [injection H as <-; exact HL|].
  unfold u32_rules in Hu. cbn [forallb] in Hu. apply andb_true_iff in Hu as (Hu1 & Hu2). cbn [compile_rules] in H.
  destruct (canonical_name sy (r_id r)) as [name|]; [|discriminate]. apply bind_ok in H as ((L1 & j) & A & H). cbv zeta in H.
  apply IH in H; [exact H|exact Hu2|]. cbn [g_instrs]. apply Forall_app. split; [|constructor; [exact I|constructor]].
  eapply (defs_keep (r_defs r)); [|exact Hu1|exact HL|exact A]. apply Forall_forall. intros ts _. apply Forall_forall. intros t _. split; [apply primary_keeps|].
  destruct (t_exc t); [apply primary_keeps|exact I].
Qed.
Lemma compile_narrow : forall rs sy g, u32_rules rs = true -> new_syntax rs = Ok sy -> compile cfg sy = Ok g -> narrow_graph g.
Proof.
  intros rs sy g Hu Hs Hc. assert (Er : sy_rules sy = rs).
  { unfold new_syntax in Hs. apply bind_ok in Hs as ((names & index) & _ & Hs). apply bind_ok in Hs as (u & _ & Hs). injection Hs as <-. reflexivity. }
  unfold compile in Hc. rewrite Er in Hc. eapply rules_keep in Hc; [exact Hc|exact Hu|constructor].
Qed.
End Graph.
Scheme wf_primary_mut := Induction for wf_primary Sort Prop
with wf_factor_mut := Induction for wf_factor Sort Prop
with wf_term_mut := Induction for wf_term Sort Prop
with wf_single_mut := Induction for wf_single Sort Prop
with wf_defs_mut := Induction for wf_defs Sort Prop.
Lemma wf_u32 : forall d, wf_defs d -> u32_defs d = true.
Proof.
  apply (wf_defs_mut (fun p _ => u32_primary p = true) (fun f _ => u32_factor f = true) (fun t _ => u32_term t = true)
    (fun ts _ => forallb u32_term ts = true) (fun d _ => u32_defs d = true)); try reflexivity; auto.
  - intros n p Hn _ Hp. unfold u32_factor. cbn [f_rep f_prim]. apply andb_true_iff. split; [apply N.leb_le; exact Hn|exact Hp].
  - intros f _ Hf. unfold u32_term. cbn [t_factor t_exc]. rewrite Hf. reflexivity.
  - intros f e _ Hf _ He. unfold u32_term. cbn [t_factor t_exc]. rewrite Hf, He. reflexivity.
  - intros t _ Ht. cbn [forallb]. rewrite Ht. reflexivity.
  - intros t ts _ Ht _ Hts. cbn [forallb]. rewrite Ht, Hts. reflexivity.
  - intros ts _ Hts. unfold u32_defs. cbn [forallb]. rewrite Hts. reflexivity.
  - intros ts ds _ Hts _ Hds. unfold u32_defs in *. cbn [forallb]. rewrite Hts, Hds. reflexivity.
Qed.
