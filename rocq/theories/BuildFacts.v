(** Debug builds and release builds of the lexer. *)
From Coq Require Import String List NArith Arith Bool Lia.
From Verif Require Import Base Tokenizer Ast Lex LexRelease SpecLex SpecBuild.
Import ListNotations.
Open Scope nat_scope.

Lemma build_builds : forall ts, build_syntax_rule ts = if one_final_terminator ts then build_syntax_rule_release ts else Panic PDebugAssert.
Proof. intros ts. unfold build_syntax_rule, build_syntax_rule_release. destruct (one_final_terminator ts); reflexivity. Qed.

(** ** The two agree until an assertion fails *)
Definition same_or_stopped {A} (d r : lexer * res A) : Prop := r = d \/ snd d = Panic PDebugAssert.
Lemma append_builds : forall new cur, append_loop_release cur new = append_loop cur new \/ snd (append_loop cur new) = Panic PDebugAssert.
Proof.
  induction new as [|t new IH]; intros cur; [left; reflexivity|]. cbn [append_loop append_loop_release].
  destruct (is_terminator t); [|apply IH]. rewrite build_builds. destruct (one_final_terminator (cur ++ [t])); [|right; reflexivity].
  destruct (build_syntax_rule_release (cur ++ [t])) as [o|e|p|]; try (left; reflexivity).
  destruct (IH []) as [->|E]; [left; reflexivity|right]. destruct (append_loop [] new) as (c & [rs|e|p|]); cbn [snd] in *; try discriminate. exact E.
Qed.
Lemma lx_append_builds : forall lx tk r, same_or_stopped (lx_append lx tk r) (lx_append_release lx tk r).
Proof.
  intros lx tk [new|e|p|]; try (left; reflexivity). unfold lx_append, lx_append_release.
  destruct (append_builds new (lx_tokens lx)) as [->|E]; [left; reflexivity|right]. destruct (append_loop (lx_tokens lx) new) as (ts & rs). exact E.
Qed.
Lemma first_builds : forall d r : lexer * res (list rule), same_or_stopped d r ->
  same_or_stopped (let '(lx, rs) := d in (lx, first_rule rs)) (let '(lx, rs) := r in (lx, first_rule rs)).
Proof. intros (lx & rs) r [->|E]; [left; reflexivity|right]. cbn [snd] in *. rewrite E. reflexivity. Qed.
Lemma step_builds : forall lx h, (release_observe lx h = hobserve lx h /\ release_step lx h = hstep lx h) \/ stopped (hobserve lx h).
Proof.
  intros lx [c|s| |]; cbn [release_observe hobserve release_step hstep].
  - enough (same_or_stopped (lx_push lx c) (lx_push_release lx c)) as [->|E]; [left; split; reflexivity|right; rewrite E; constructor|].
    unfold lx_push, lx_push_release. destruct (tk_push (lx_tk lx) c) as (tk & r). apply first_builds, lx_append_builds.
  - enough (same_or_stopped (lx_push_str lx s) (lx_push_str_release lx s)) as [->|E]; [left; split; reflexivity|right; rewrite E; constructor|].
    unfold lx_push_str, lx_push_str_release. destruct (tk_push_str (lx_tk lx) s) as (tk & r). apply lx_append_builds.
  - enough (same_or_stopped (lx_flush lx) (lx_flush_release lx)) as [->|E]; [left; split; reflexivity|right; rewrite E; constructor|].
    unfold lx_flush, lx_flush_release. destruct (tk_flush (lx_tk lx)) as (tk & r). apply first_builds, lx_append_builds.
  - left. split; reflexivity.
Qed.
Lemma lexer_builds : forall hs lx, release_observations lx hs = observations lx hs \/
  exists before h after, hs = before ++ h :: after /\ release_observations lx before = observations lx before /\
    stopped (hobserve (history lx before) h).
Proof.
  induction hs as [|h hs IH]; intros lx; [left; reflexivity|]. destruct (step_builds lx h) as [(E1 & E2)|Hs].
  - cbn [release_observations observations]. rewrite E1, E2. destruct (IH (hstep lx h)) as [->|(b & h' & a & -> & E & Hs)]; [left; reflexivity|right].
    exists (h :: b), h', a. split; [reflexivity|]. split; [|exact Hs]. cbn [release_observations observations]. rewrite E1, E2, E. reflexivity.
  - right. exists [], h, hs. split; [reflexivity|]. split; [reflexivity|exact Hs].
Qed.

(** ** A careful client never meets the assertion *)
Definition tidy_tokens (ts : list token) : Prop := existsb is_terminator ts = false.
Lemma final_one : forall cur t, tidy_tokens cur -> is_terminator t = true -> one_final_terminator (cur ++ [t]) = true.
Proof.
  intros cur t Hc Ht. unfold one_final_terminator. rewrite rev_app_distr. cbn [rev app]. rewrite Ht.
  enough (existsb is_terminator (rev cur) = false) as -> by reflexivity. destruct (existsb is_terminator (rev cur)) eqn:E; [|reflexivity].
  apply existsb_exists in E as (x & Hx & Tx). apply in_rev in Hx. unfold tidy_tokens in Hc.
  assert (existsb is_terminator cur = true) by (apply existsb_exists; eauto). congruence.
Qed.
Lemma release_no_assert : forall ts, build_syntax_rule_release ts <> Panic PDebugAssert.
Proof.
  assert (G : forall f, (forall all ts, read_definition_list f all ts <> Panic PDebugAssert) /\
    (forall all ts, read_single_definition f all ts <> Panic PDebugAssert) /\ (forall all ts, read_syntactic_term f all ts <> Panic PDebugAssert) /\
    (forall all ts, read_syntactic_factor f all ts <> Panic PDebugAssert) /\ (forall all ts, read_syntactic_primary f all ts <> Panic PDebugAssert)).
  { assert (B : forall A C (m : res A) (k : A -> res C), m <> Panic PDebugAssert -> (forall a, k a <> Panic PDebugAssert) -> bind m k <> Panic PDebugAssert).
    { intros A C [a|e|p|] k H1 H2; cbn; try discriminate; [apply H2|]. intros E. apply H1. congruence. }
    induction f as [|f (I1 & I2 & I3 & I4 & I5)]; [repeat split; intros; discriminate|]. split; [|split; [|split; [|split]]]; intros all ts.
    - cbn [read_definition_list]. apply B; [apply I2|]. intros (sd & next). destruct (skip_trivia next) as [|t r]; [discriminate|].
      destruct (is_terminator t); [discriminate|]. apply B; [apply I1|]. intros; discriminate.
    - cbn [read_single_definition]. apply B; [apply I3|]. intros (tm & next). destruct (skip_trivia next) as [|t r]; [discriminate|].
      destruct t; cbn [is_terminator]; try discriminate. apply B; [apply I2|]. intros (x & y). discriminate.
    - cbn [read_syntactic_term]. apply B; [apply I4|]. intros (fa & next). destruct (skip_trivia next) as [|t r]; [discriminate|].
      destruct t; try discriminate. apply B; [apply I4|]. intros (x & y). discriminate.
    - cbn [read_syntactic_factor]. apply B.
      + destruct (skip_trivia ts) as [|t r]; [discriminate|]. destruct t; try discriminate. match goal with |- context [parse_u32 ?d] => destruct (parse_u32 d) end; [|discriminate].
        destruct (skip_trivia r) as [|t' r']; [discriminate|]. destruct t'; discriminate.
      + intros (n & next). apply B; [apply I5|]. intros (x & y). discriminate.
    - cbn [read_syntactic_primary]. destruct (skip_trivia ts) as [|t r]; [discriminate|]. destruct t; try discriminate.
      + destruct (_ && _); [discriminate|]. apply B; [|intros (x & y); discriminate]. destruct (find_close _ _ _ _) as [(sub & next)|]; [|discriminate]. apply B; [apply I1|]. discriminate.
      + destruct (_ && _); [discriminate|]. apply B; [|intros (x & y); discriminate]. destruct (find_close _ _ _ _) as [(sub & next)|]; [|discriminate]. apply B; [apply I1|]. discriminate.
      + apply B; [|intros (x & y); discriminate]. destruct (find_close _ _ _ _) as [(sub & next)|]; [|discriminate]. apply B; [apply I1|]. discriminate.
      + destruct (read_meta_identifier _) as ((id & lo) & next). discriminate. }
  intros ts. unfold build_syntax_rule_release. destruct (read_meta_identifier ts) as ((id & lo) & next). destruct (skip_trivia next) as [|t r]; [discriminate|].
  destruct lo as [l|]; [|destruct (is_terminator t); discriminate]. destruct (negb _); [discriminate|]. destruct id; [discriminate|].
  pose proof (proj1 (G (rd_fuel ts)) ts r) as K. destruct (read_definition_list (rd_fuel ts) ts r) as [d|e|p|]; cbn [bind]; try discriminate. intros E. apply K. congruence.
Qed.
Lemma append_tidy : forall new cur, tidy_tokens cur ->
  snd (append_loop cur new) <> Panic PDebugAssert /\ (forall rs, snd (append_loop cur new) = Ok rs -> tidy_tokens (fst (append_loop cur new))).
Proof.
  induction new as [|t new IH]; intros cur Hc; [split; [discriminate|intros; exact Hc]|]. cbn [append_loop]. destruct (is_terminator t) eqn:Et.
  - rewrite build_builds, (final_one cur t Hc Et). pose proof (release_no_assert (cur ++ [t])) as Hn.
    destruct (build_syntax_rule_release (cur ++ [t])) as [o|e|p|]; cbn [snd fst]; try (split; [discriminate|intros; discriminate]); [|split; [congruence|discriminate]].
    destruct (IH [] eq_refl) as (K1 & K2). destruct (append_loop [] new) as (c & [rs|e|p|]); cbn [snd fst] in *; try (split; [exact K1 || discriminate|intros; discriminate]).
    split; [discriminate|]. intros _ _. exact (K2 rs eq_refl).
  - apply IH. unfold tidy_tokens. rewrite existsb_app, Hc. cbn. rewrite Et. reflexivity.
Qed.
Lemma tk_push_no_assert : forall t s, snd (tk_push_str t s) <> Panic PDebugAssert.
Proof.
  assert (R : forall loc b fl, read_next loc b fl <> Panic PDebugAssert).
  { intros loc b flush. unfold read_next. destruct b as [|c r]; [discriminate|]. cbn zeta.
    repeat match goal with |- (if ?x then _ else _) <> _ => destruct x end; try discriminate.
    - unfold terminal_string. destruct (scan_to c is_terminal r) as [| |[|]]; try discriminate. destruct flush; discriminate.
    - assert (HC : comment loc (c :: r) flush <> Panic PDebugAssert).
      { unfold comment. destruct r as [|p r]; [discriminate|]. destruct (comment_loop p 0 _ r) as [| |[|]]; try discriminate. destruct flush; discriminate. }
      destruct r as [|d [|e r]]; try discriminate.
      + destruct (d =? c_star)%N; [exact HC|]. destruct (d =? c_slash)%N; [discriminate|]. destruct (d =? c_colon)%N; discriminate.
      + destruct (d =? c_star)%N; [destruct (e =? c_rpar)%N; [discriminate|exact HC]|]. destruct (d =? c_slash)%N; [discriminate|]. destruct (d =? c_colon)%N; discriminate.
    - unfold special_sequence. destruct (scan_to c_quest is_special r) as [| |]; try discriminate. destruct flush; discriminate. }
  intros t s. unfold tk_push_str. destruct (over_capacity t (length s)); [discriminate|]. unfold tokenize.
  match goal with |- context [tokenize_loop ?f ?l ?b] => assert (G : snd (tokenize_loop f l b) <> Panic PDebugAssert) end.
  { generalize (S (length (tk_buf (Tk (tk_max t) (tk_buf t ++ s) (tk_loc t))))) as f. intros f.
    generalize (tk_loc (Tk (tk_max t) (tk_buf t ++ s) (tk_loc t))) (tk_buf (Tk (tk_max t) (tk_buf t ++ s) (tk_loc t))).
    induction f as [|f IH]; intros l b; [discriminate|]. cbn [tokenize_loop]. destruct b as [|c r]; [discriminate|]. pose proof (R l (c :: r) false) as Hr.
    destruct (read_next l (c :: r) false) as [[(k & n)|]|e|p|]; cbn [snd]; try discriminate; [|congruence].
    specialize (IH (loc_push_str l (firstn n (c :: r))) (skipn n (c :: r))). destruct (tokenize_loop f _ _) as (l' & [(ts & rest)|e|p|]); cbn [snd] in *; try discriminate. congruence. }
  destruct (tokenize_loop _ _ _) as (l & [(ts & rest)|e|p|]); cbn [snd] in *; try discriminate. congruence.
Qed.
Lemma tk_flush_no_assert : forall t, snd (tk_flush t) <> Panic PDebugAssert.
Proof.
  intros t. unfold tk_flush. assert (R : read_next (tk_loc t) (tk_buf t) true <> Panic PDebugAssert).
  { unfold read_next. destruct (tk_buf t) as [|c r]; [discriminate|]. cbn zeta.
    repeat match goal with |- (if ?x then _ else _) <> _ => destruct x end; try discriminate.
    - unfold terminal_string. destruct (scan_to c is_terminal r) as [| |[|]]; discriminate.
    - assert (HC : comment (tk_loc t) (c :: r) true <> Panic PDebugAssert).
      { unfold comment. destruct r as [|p r]; [discriminate|]. destruct (comment_loop p 0 _ r) as [| |[|]]; discriminate. }
      destruct r as [|d [|e r]]; try discriminate.
      + destruct (d =? c_star)%N; [exact HC|]. destruct (d =? c_slash)%N; [discriminate|]. destruct (d =? c_colon)%N; discriminate.
      + destruct (d =? c_star)%N; [destruct (e =? c_rpar)%N; [discriminate|exact HC]|]. destruct (d =? c_slash)%N; [discriminate|]. destruct (d =? c_colon)%N; discriminate.
    - unfold special_sequence. destruct (scan_to c_quest is_special r) as [| |]; discriminate. }
  destruct (read_next (tk_loc t) (tk_buf t) true) as [[(k & n)|]|e|p|]; cbn [snd]; try discriminate; [| |congruence]; cbn [tk_buf]; destruct (skipn _ _); discriminate.
Qed.
Lemma lx_append_tidy : forall lx tk r, tidy_tokens (lx_tokens lx) -> r <> Panic PDebugAssert ->
  snd (lx_append lx tk r) <> Panic PDebugAssert /\ (forall rs, snd (lx_append lx tk r) = Ok rs -> tidy_tokens (lx_tokens (fst (lx_append lx tk r)))).
Proof.
  intros lx tk [new|e|p|] Hc Hr; cbn [lx_append snd fst]; try (split; [discriminate|intros; discriminate]); [|split; [congruence|discriminate]].
  destruct (append_tidy new (lx_tokens lx) Hc) as (K1 & K2). destruct (append_loop (lx_tokens lx) new) as (ts & rs). exact (conj K1 K2).
Qed.
Lemma first_no : forall rs : res (list rule), rs <> Panic PDebugAssert -> first_rule rs <> Panic PDebugAssert.
Proof. intros [rs|e|p|] H; cbn; try discriminate. congruence. Qed.
Lemma step_tidy : forall lx h, tidy_tokens (lx_tokens lx) ->
  ~ stopped (hobserve lx h) /\ (returned (hobserve lx h) -> tidy_tokens (lx_tokens (hstep lx h))).
Proof.
  intros lx [c|s| |] Hc; cbn [hobserve hstep].
  - unfold lx_push, tk_push. pose proof (tk_push_no_assert (lx_tk lx) [c]) as Hn. destruct (tk_push_str (lx_tk lx) [c]) as (tk & r). cbn [snd] in Hn.
    destruct (lx_append_tidy lx tk r Hc Hn) as (K1 & K2). destruct (lx_append lx tk r) as (lx' & rs). cbn [snd fst] in *. split.
    + intros Hs. inversion Hs as [E|]. apply (first_no rs K1). congruence.
    + destruct rs as [rs|e|p|]; cbn; try contradiction. intros _. exact (K2 rs eq_refl).
  - unfold lx_push_str. pose proof (tk_push_no_assert (lx_tk lx) s) as Hn. destruct (tk_push_str (lx_tk lx) s) as (tk & r). cbn [snd] in Hn.
    destruct (lx_append_tidy lx tk r Hc Hn) as (K1 & K2). destruct (lx_append lx tk r) as (lx' & rs). cbn [snd fst] in *. split.
    + intros Hs. inversion Hs as [|E]. congruence.
    + destruct rs as [rs|e|p|]; cbn; try contradiction. intros _. exact (K2 rs eq_refl).
  - unfold lx_flush. pose proof (tk_flush_no_assert (lx_tk lx)) as Hn. destruct (tk_flush (lx_tk lx)) as (tk & r). cbn [snd] in Hn.
    destruct (lx_append_tidy lx tk r Hc Hn) as (K1 & K2). destruct (lx_append lx tk r) as (lx' & rs). cbn [snd fst] in *. split.
    + intros Hs. inversion Hs as [E|]. apply (first_no rs K1). congruence.
    + destruct rs as [rs|e|p|]; cbn; try contradiction. intros _. exact (K2 rs eq_refl).
  - split; [intros Hs; inversion Hs|]. intros _. reflexivity.
Qed.
Definition ready (lx : lexer) (hs : list hcall) : Prop := tidy_tokens (lx_tokens lx) \/ match hs with [] => True | h :: _ => h = HReset end.
Lemma ready_step : forall lx h hs, ready lx (h :: hs) -> release_observe lx h = hobserve lx h /\ release_step lx h = hstep lx h /\ ~ stopped (hobserve lx h) /\
  (returned (hobserve lx h) -> tidy_tokens (lx_tokens (hstep lx h))).
Proof.
  intros lx h hs [Ht|E].
  - destruct (step_tidy lx h Ht) as (K1 & K2). destruct (step_builds lx h) as [(E1 & E2)|Hs]; [|contradiction]. auto.
  - subst h. cbn. repeat split. intros Hs. inversion Hs.
Qed.
Definition careful_either (lx : lexer) (hs : list hcall) : Prop := careful hs (observations lx hs) \/ careful hs (release_observations lx hs).
Lemma careful_step : forall lx h hs, ready lx (h :: hs) -> careful_either lx (h :: hs) -> ready (hstep lx h) hs /\ careful_either (hstep lx h) hs.
Proof.
  intros lx h hs Hr Hc. destruct (ready_step lx h hs Hr) as (E1 & E2 & _ & K2). unfold careful_either in *. cbn [observations release_observations careful] in Hc. rewrite E1, E2 in Hc.
  destruct Hc as [(H1 & H2)|(H1 & H2)]; (split; [destruct H1 as [H1|H1]; [left; exact (K2 H1)|right; exact H1]|auto]).
Qed.
Lemma careful_builds : forall hs lx, ready lx hs -> careful_either lx hs ->
  Forall (fun o => ~ stopped o) (observations lx hs) /\ release_observations lx hs = observations lx hs.
Proof.
  induction hs as [|h hs IH]; intros lx Hr Hc; [split; [constructor|reflexivity]|].
  destruct (careful_step lx h hs Hr Hc) as (Hr' & Hc'). destruct (ready_step lx h hs Hr) as (E1 & E2 & Hn & _). destruct (IH _ Hr' Hc') as (K1 & K2).
  cbn [observations release_observations]. rewrite E1, E2, K2. split; [constructor; assumption|reflexivity].
Qed.
Lemma careful_ready : forall hs h lx, ready lx (hs ++ [h]) -> careful_either lx (hs ++ [h]) ->
  ready (history lx hs) [h] /\ release_history lx hs = history lx hs.
Proof.
  induction hs as [|h0 hs IH]; intros h lx Hr Hc; [split; [exact Hr|reflexivity]|].
  destruct (careful_step lx h0 (hs ++ [h]) Hr Hc) as (Hr' & Hc'). destruct (ready_step lx h0 (hs ++ [h]) Hr) as (E1 & E2 & _). destruct (IH h _ Hr' Hc') as (K1 & K2).
  unfold history, release_history in *. cbn [fold_left]. rewrite E2. split; assumption.
Qed.
