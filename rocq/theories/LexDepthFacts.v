(** How deep the recursive descent goes. *)
From Coq Require Import String List NArith Arith Bool Lia.
From Verif Require Import Base Ast Tokenizer Lex SpecNest LexDepth LexCost SpecText TextFacts SpecTok SpecLex TokFacts TokRun LexRun GramFacts LexCostFacts.
Import ListNotations.
Open Scope nat_scope.

Lemma list_max_cons : forall x l, list_max (x :: l) = Nat.max x (list_max l).
Proof. reflexivity. Qed.
Lemma nest_dl_cons : forall sd ds, nest_dl (sd :: ds) = Nat.max (nest_sd sd) (nest_dl ds).
Proof. reflexivity. Qed.
Lemma nest_sd_cons : forall t ts, nest_sd (t :: ts) = Nat.max (nest_t t) (nest_sd ts).
Proof. reflexivity. Qed.

(** ** What was read tells how deep it went *)
Definition tells (f : nat) : Prop := forall all ts,
  (forall d, read_definition_list f all ts = Ok d -> dl_deep f all ts = 6 * nest_dl d + 5) /\
  (forall sd nx, read_single_definition f all ts = Ok (sd, nx) -> sd_deep f all ts = 6 * nest_sd sd + 4) /\
  (forall t nx, read_syntactic_term f all ts = Ok (t, nx) -> term_deep f all ts = 6 * nest_t t + 3) /\
  (forall x nx, read_syntactic_factor f all ts = Ok (x, nx) -> factor_deep f all ts = 6 * nest_p (f_prim x) + 2) /\
  (forall p nx, read_syntactic_primary f all ts = Ok (p, nx) -> primary_deep f all ts = 6 * nest_p p + 1).

Lemma tells_all : forall f, tells f.
Proof.
  induction f as [|f IH]; [intros all ts; repeat split; intros; discriminate|].
  intros all ts. split; [|split; [|split; [|split]]].
  - intros d E. cbn [read_definition_list dl_deep] in *.
    destruct (IH all ts) as (_ & Hsd & _).
    destruct (read_single_definition f all ts) as [(sd, nx)| | |]; try discriminate. cbn [bind] in E.
    rewrite (Hsd _ _ eq_refl).
    destruct (skip_trivia nx) as [|t r]; [injection E as <-; rewrite nest_dl_cons; change (nest_dl []) with 0; lia|].
    destruct (is_terminator t); [injection E as <-; rewrite nest_dl_cons; change (nest_dl []) with 0; lia|].
    set (r' := match t with TDefSep _ _ => r | _ => t :: r end) in *.
    destruct (IH all r') as (Hdl & _).
    destruct (read_definition_list f all r') as [ds| | |]; try discriminate. cbn [bind] in E. injection E as <-.
    rewrite (Hdl _ eq_refl), nest_dl_cons. lia.
  - intros sd nx E. cbn [read_single_definition sd_deep] in *.
    destruct (IH all ts) as (_ & _ & Ht & _).
    destruct (read_syntactic_term f all ts) as [(tm, nx1)| | |]; try discriminate. cbn [bind] in E.
    rewrite (Ht _ _ eq_refl).
    assert (Hone : [tm] = sd -> Nat.max (1 + (6 * nest_t tm + 3)) 0 = 6 * nest_sd sd + 4).
    { intros <-. rewrite nest_sd_cons. change (nest_sd []) with 0. lia. }
    destruct (skip_trivia nx1) as [|t r]; [injection E as E _; exact (Hone E)|].
    destruct t; cbn [is_terminator] in E; try discriminate; try (injection E as E _; exact (Hone E)).
    destruct (IH all r) as (_ & Hsd & _).
    destruct (read_single_definition f all r) as [(tms, nx2)| | |]; try discriminate. cbn [bind] in E. injection E as <- _.
    rewrite (Hsd _ _ eq_refl), nest_sd_cons. lia.
  - intros t nx E. cbn [read_syntactic_term term_deep] in *.
    destruct (IH all ts) as (_ & _ & _ & Hf & _).
    destruct (read_syntactic_factor f all ts) as [(fa, nx1)| | |]; try discriminate. cbn [bind] in E.
    rewrite (Hf _ _ eq_refl).
    assert (Hone : Term fa None = t -> 1 + Nat.max (6 * nest_p (f_prim fa) + 2) 0 = 6 * nest_t t + 3).
    { intros <-. unfold nest_t. cbn [t_factor t_exc]. lia. }
    destruct (skip_trivia nx1) as [|x r]; [injection E as E _; exact (Hone E)|].
    destruct x; try (injection E as E _; exact (Hone E)).
    destruct (IH all r) as (_ & _ & _ & Hf2 & _).
    destruct (read_syntactic_factor f all r) as [(ex, nx2)| | |]; try discriminate. cbn [bind] in E. injection E as <- _.
    rewrite (Hf2 _ _ eq_refl). unfold nest_t. cbn [t_factor t_exc]. lia.
  - intros x nx E. cbn [read_syntactic_factor factor_deep] in *.
    assert (Hone : forall n ts', (let? (p, next) := read_syntactic_primary f all ts' in Ok (Factor n p, next)) = Ok (x, nx) ->
       1 + primary_deep f all ts' = 6 * nest_p (f_prim x) + 2).
    { intros n ts' E2. destruct (IH all ts') as (_ & _ & _ & _ & Hp).
      destruct (read_syntactic_primary f all ts') as [(p, nx2)| | |]; try discriminate. cbn [bind] in E2. injection E2 as <- _.
      rewrite (Hp _ _ eq_refl). cbn [f_prim]. lia. }
    destruct (skip_trivia ts) as [|t r]; [exact (Hone _ _ E)|].
    destruct t; try exact (Hone _ _ E).
    destruct (parse_u32 s) as [n|]; [|discriminate].
    destruct (skip_trivia r) as [|t2 r2]; [discriminate|].
    destruct t2; try discriminate. exact (Hone _ _ E).
  - intros p nx E. cbn [read_syntactic_primary primary_deep] in *.
    assert (Henc : forall o c r (mk : definition_list -> primary) e, (forall d, nest_p (mk d) = S (nest_dl d)) ->
      bind (match find_close o c 0 r with
            | Some (sub, next) => let? d := read_definition_list f sub sub in Ok (d, next)
            | None => Err e
            end) (fun '(d, next) => Ok (mk d, next)) = Ok (p, nx) ->
      1 + (1 + match find_close o c 0 r with Some (sub, _) => dl_deep f sub sub | None => 0 end) = 6 * nest_p p + 1).
    { intros o c r mk e Hmk E2. destruct (find_close o c 0 r) as [(sub, nx2)|]; [|discriminate].
      destruct (IH sub sub) as (Hdl & _).
      destruct (read_definition_list f sub sub) as [d| | |]; try discriminate. cbn [bind] in E2. injection E2 as <- _.
      rewrite (Hdl _ eq_refl), Hmk. lia. }
    destruct (skip_trivia ts) as [|t r]; [injection E as <- _; reflexivity|].
    destruct t; try (injection E as <- _; reflexivity).
    + destruct (str_eqb s [c_lpar; c_slash] && match r with [] => false | t :: _ => is_end_group t end); [discriminate|].
      exact (Henc _ _ _ (POptional l) _ (fun d => eq_refl) E).
    + destruct (str_eqb s [c_lpar; c_colon] && match r with [] => false | t :: _ => is_end_group t end); [discriminate|].
      exact (Henc _ _ _ (PRepeated l) _ (fun d => eq_refl) E).
    + exact (Henc _ _ _ (PGrouped l) _ (fun d => eq_refl) E).
    + destruct (read_meta_identifier (TMeta l s :: r)) as ((id, lo), nx2). injection E as <- _. reflexivity.
Qed.

(** ** It never goes deeper than the tokens allow *)
Definition bounded (f : nat) : Prop := forall all ts,
  dl_deep f all ts <= 3 * length ts + 5 /\ sd_deep f all ts <= 3 * length ts + 4 /\
  term_deep f all ts <= 3 * length ts + 3 /\ factor_deep f all ts <= 3 * length ts + 2 /\
  primary_deep f all ts <= 3 * length ts + 1.

Lemma bounded_all : forall f, bounded f.
Proof.
  induction f as [|f IH]; [intros all ts; cbn; repeat split; lia|].
  intros all ts. destruct (charges_all f all ts) as (_ & (Csd & _) & Ct & Cf & _).
  split; [|split; [|split; [|split]]].
  - cbn [dl_deep]. destruct (IH all ts) as (_ & Hsd & _).
    destruct (read_single_definition f all ts) as [(sd, nx)| | |]; try lia. destruct Csd as (_ & Hl).
    pose proof (skip_length nx) as Hs. destruct (skip_trivia nx) as [|t r]; [lia|].
    destruct (is_terminator t); [lia|]. cbn [length] in Hs.
    set (r' := match t with TDefSep _ _ => r | _ => t :: r end).
    assert (length r' <= S (length r)) by (unfold r'; destruct t; cbn [length]; lia).
    destruct (IH all r') as (Hdl & _). lia.
  - cbn [sd_deep]. destruct (IH all ts) as (_ & _ & Ht & _).
    destruct (read_syntactic_term f all ts) as [(tm, nx)| | |]; try lia. destruct Ct as (_ & Hl).
    pose proof (skip_length nx) as Hs. destruct (skip_trivia nx) as [|t r]; [lia|]. cbn [length] in Hs.
    destruct t; try lia. destruct (IH all r) as (_ & Hsd & _). lia.
  - cbn [term_deep]. destruct (IH all ts) as (_ & _ & _ & Hf & _).
    destruct (read_syntactic_factor f all ts) as [(fa, nx)| | |]; try lia. destruct Cf as (_ & Hl).
    pose proof (skip_length nx) as Hs. destruct (skip_trivia nx) as [|t r]; [lia|]. cbn [length] in Hs.
    destruct t; try lia. destruct (IH all r) as (_ & _ & _ & Hf2 & _). lia.
  - cbn [factor_deep]. pose proof (skip_length ts) as Hs.
    destruct (IH all (skip_trivia ts)) as (_ & _ & _ & _ & Hp).
    destruct (skip_trivia ts) as [|t r]; [lia|]. destruct t; try lia. cbn [length] in *.
    destruct (parse_u32 s) as [n|]; [|lia].
    pose proof (skip_length r) as Hs2. destruct (skip_trivia r) as [|t2 r2]; [lia|]. destruct t2; try lia.
    cbn [length] in *. pose proof (skip_length r2) as Hs3.
    destruct (IH all (skip_trivia r2)) as (_ & _ & _ & _ & Hp2). lia.
  - cbn [primary_deep]. pose proof (skip_length ts) as Hs.
    assert (Henc : forall o c r, S (length r) <= length ts ->
       1 + (1 + match find_close o c 0 r with Some (sub, _) => dl_deep f sub sub | None => 0 end) <= 3 * length ts + 1).
    { intros o c r Hr. destruct (find_close o c 0 r) as [(sub, nx)|] eqn:F; [|lia].
      apply close_cost_found in F as (_ & F). destruct (IH sub sub) as (Hdl & _). lia. }
    destruct (skip_trivia ts) as [|t r]; [lia|]. cbn [length] in Hs.
    destruct t; try lia.
    + destruct (str_eqb s [c_lpar; c_slash] && match r with [] => false | t :: _ => is_end_group t end); [lia|].
      apply Henc. lia.
    + destruct (str_eqb s [c_lpar; c_colon] && match r with [] => false | t :: _ => is_end_group t end); [lia|].
      apply Henc. lia.
    + apply Henc. lia.
Qed.

(** ** Rules *)
Definition rule_deep (r : rule) : nat := 6 * nest_dl (r_defs r) + 6.

Lemma build_tells : forall ts o, build_syntax_rule ts = Ok o ->
  build_deep ts = match o with Some r => rule_deep r | None => 1 end.
Proof.
  intros ts o E. unfold build_syntax_rule in E. unfold build_deep.
  destruct (negb (one_final_terminator ts)); [discriminate|].
  destruct (read_meta_identifier ts) as ((id, lo), nx).
  destruct (skip_trivia nx) as [|t r]; [discriminate|].
  destruct lo as [l|].
  - destruct (is_defining_symbol t); [|discriminate]. cbn [negb] in E.
    destruct id as [|c id]; [discriminate|].
    destruct (tells_all (rd_fuel ts) ts r) as (Hdl & _).
    destruct (read_definition_list (rd_fuel ts) ts r) as [d| | |]; try discriminate. cbn [bind] in E. injection E as <-.
    rewrite (Hdl _ eq_refl). unfold rule_deep. cbn [r_defs]. lia.
  - destruct (is_terminator t); [|discriminate]. injection E as <-. reflexivity.
Qed.

Lemma build_bounded : forall ts, build_deep ts <= 3 * length ts + 6.
Proof.
  intros ts. unfold build_deep. destruct (read_meta_identifier ts) as ((id, lo), nx) eqn:E.
  assert (Hn : length nx <= length ts).
  { unfold read_meta_identifier in E. destruct (rmi_loop [] None (skip_trivia ts)) as ((i2, l2), n2) eqn:F.
    injection E as _ _ <-. pose proof (skip_length ts). pose proof (rmi_cost_le _ _ _ _ _ _ F).
    destruct (skip_trivia ts) as [|t r]; [cbn in F; injection F as _ _ <-; lia|].
    destruct t; cbn [rmi_cost] in *; lia. }
  pose proof (skip_length nx) as Hs. destruct (skip_trivia nx) as [|t r]; [lia|]. cbn [length] in Hs.
  destruct lo; [|lia]. destruct (is_defining_symbol t); [|lia].
  destruct (bounded_all (rd_fuel ts) ts r) as (Hdl & _). lia.
Qed.

(** [deepest rs n]: what rules a reading gave, and how deep it went. *)
Definition deepest (rs : list rule) (n : nat) : Prop :=
  list_max (map rule_deep rs) <= n <= Nat.max 1 (list_max (map rule_deep rs)).
Lemma deepest_app : forall a b n m, deepest a n -> deepest b m -> deepest (a ++ b) (Nat.max n m).
Proof. intros a b n m Ha Hb. unfold deepest in *. rewrite map_app, list_max_app. lia. Qed.

Lemma append_tells : forall new cur cur' rs, append_loop cur new = (cur', Ok rs) -> deepest rs (append_deep cur new).
Proof.
  induction new as [|t new IH]; intros cur cur' rs E; cbn [append_loop append_deep] in *.
  { injection E as _ <-. unfold deepest. cbn. lia. }
  destruct (is_terminator t); [|exact (IH _ _ _ E)].
  destruct (build_syntax_rule (cur ++ [t])) as [o| | |] eqn:B; try discriminate.
  destruct (append_loop [] new) as (c & [rs2| | |]) eqn:F; try discriminate. injection E as _ <-.
  rewrite (build_tells _ _ B). apply deepest_app; [|exact (IH _ _ _ F)].
  unfold deepest. destruct o; cbn [opt_list map]; [rewrite list_max_cons|]; change (list_max []) with 0; lia.
Qed.

Lemma append_bounded : forall new cur, append_deep cur new <= 3 * (length cur + length new) + 6.
Proof.
  induction new as [|t new IH]; intros cur; cbn [append_deep length]; [lia|].
  destruct (is_terminator t).
  - pose proof (build_bounded (cur ++ [t])) as Hb. rewrite app_length in Hb. cbn [length] in Hb.
    specialize (IH []). cbn [length] in IH. destruct (build_syntax_rule (cur ++ [t])); lia.
  - specialize (IH (cur ++ [t])). rewrite app_length in IH. cbn [length] in IH. lia.
Qed.

(** ** Fragments *)
Lemma call_tells : forall name max lx f lx' rs, reached name max lx -> call lx f = (lx', Ok rs) ->
  deepest rs (call_deep lx f).
Proof.
  intros name max lx f lx' rs Hr E. unfold call_deep.
  assert (Hs : forall s lx2 rs2, lx_push_str lx s = (lx2, Ok rs2) -> deepest rs2 (lx_append_deep lx (snd (tk_push_str (lx_tk lx) s)))).
  { intros s lx2 rs2 E2. unfold lx_push_str in E2. destruct (tk_push_str (lx_tk lx) s) as (tk & [new| | |]); try discriminate.
    cbn [snd lx_append lx_append_deep] in *.
    destruct (append_loop (lx_tokens lx) new) as (c & r) eqn:F. injection E2 as _ ->. exact (append_tells _ _ _ _ F). }
  destruct f as [c|s]; cbn [call frag_text] in *; [|exact (Hs _ _ _ E)].
  destruct (lx_push_str lx [c]) as (lx2 & [rs2| | |]) eqn:F.
  - destruct (push_complete _ _ _ _ _ _ Hr F) as (Hl & Hp). rewrite Hp in E. cbn [bind] in E. injection E as _ <-.
    pose proof (Hs _ _ _ F) as H. destruct rs2 as [|r [|r2 rs2]]; cbn [hd_error opt_list length] in *; [exact H|exact H|lia].
  - exfalso. unfold lx_push, tk_push in E. unfold lx_push_str in F. destruct (tk_push_str (lx_tk lx) [c]) as (tk & r).
    rewrite F in E. discriminate.
  - exfalso. unfold lx_push, tk_push in E. unfold lx_push_str in F. destruct (tk_push_str (lx_tk lx) [c]) as (tk & r).
    rewrite F in E. discriminate.
  - exfalso. unfold lx_push, tk_push in E. unfold lx_push_str in F. destruct (tk_push_str (lx_tk lx) [c]) as (tk & r).
    rewrite F in E. discriminate.
Qed.

Lemma frags_tell : forall fs name max lx lx1 rs o lx2, reached name max lx -> feed lx fs = (lx1, Ok rs) ->
  lx_flush lx1 = (lx2, Ok o) -> deepest (rs ++ opt_list o) (frags_deep lx fs).
Proof.
  induction fs as [|f fs IH]; intros name max lx lx1 rs o lx2 Hr E Ef; cbn [feed frags_deep] in *.
  - injection E as <- <-. cbn [app]. unfold flush_deep. pose proof Ef as Ef0. unfold lx_flush in Ef.
    destruct (tk_flush (lx_tk lx)) as (tk & [new| | |]) eqn:T; try discriminate.
    cbn [snd lx_append lx_append_deep] in *.
    destruct (append_loop (lx_tokens lx) new) as (c & [rs| | |]) eqn:F; try discriminate.
    destruct (flush_complete _ _ _ _ _ _ _ Hr T F) as (Hl & Hp). rewrite Ef0 in Hp. injection Hp as _ ->.
    pose proof (append_tells _ _ _ _ F) as H.
    destruct rs as [|r [|r2 rs]]; cbn [hd_error opt_list length] in *; [exact H|exact H|lia].
  - destruct (call lx f) as (lx3 & [rs1| | |]) eqn:C; try discriminate.
    destruct (feed lx3 fs) as (lx4 & [rs2| | |]) eqn:F; try discriminate. injection E as <- <-.
    rewrite <- app_assoc. apply deepest_app; [exact (call_tells _ _ _ _ _ _ Hr C)|].
    eapply IH; [eapply reached_call; eassumption|exact F|exact Ef].
Qed.

Theorem reading_tells : forall name max fs rs, lex_fragments name max fs = Ok rs -> rs <> [] ->
  frags_deep (lx_new name max) fs = list_max (map rule_deep rs).
Proof.
  intros name max fs rs E Hne. unfold lex_fragments in E.
  destruct (feed (lx_new name max) fs) as (lx & [rs1| | |]) eqn:F; try discriminate. cbn [bind] in E.
  destruct (lx_flush lx) as (lx2 & [o| | |]) eqn:T; try discriminate. cbn [bind] in E. injection E as <-.
  pose proof (frags_tell _ _ _ _ _ _ _ _ (reached_new name max) F T) as (H1 & H2).
  destruct (rs1 ++ opt_list o) as [|r rs]; [congruence|]. cbn [map] in *. rewrite list_max_cons in *. unfold rule_deep in *. lia.
Qed.

(** ** A bound for every text *)
Lemma lx_push_same : forall lx c, fst (lx_push lx c) = fst (lx_push_str lx [c]).
Proof.
  intros lx c. unfold lx_push, tk_push, lx_push_str. destruct (tk_push_str (lx_tk lx) [c]) as (tk, r).
  destruct (lx_append lx tk r). reflexivity.
Qed.
Lemma push_str_size : forall lx s lx' rs, lx_push_str lx s = (lx', Ok rs) ->
  length (lx_tokens lx') + length (tk_buf (lx_tk lx')) <= length (lx_tokens lx) + length (tk_buf (lx_tk lx)) + length s.
Proof.
  intros lx s lx' rs E. unfold lx_push_str in E. destruct (tk_push_str (lx_tk lx) s) as (tk & [new| | |]) eqn:T; try discriminate.
  apply push_tokens in T. cbn [lx_append] in E. pose proof (append_cost_le new (lx_tokens lx)) as H.
  destruct (append_loop (lx_tokens lx) new) as (c & r). injection E as <- ->. cbn [lx_tokens lx_tk]. lia.
Qed.
Lemma call_size : forall lx f lx' rs, call lx f = (lx', Ok rs) ->
  length (lx_tokens lx') + length (tk_buf (lx_tk lx')) <= length (lx_tokens lx) + length (tk_buf (lx_tk lx)) + length (frag_text f).
Proof.
  intros lx f lx' rs E. destruct f as [c|s]; cbn [call frag_text] in *; [|exact (push_str_size _ _ _ _ E)].
  pose proof (lx_push_same lx c) as Hsame. destruct (lx_push lx c) as (lx1 & r) eqn:P. cbn [fst] in Hsame.
  destruct (lx_push_str lx [c]) as (lx2 & r2) eqn:S. cbn [fst] in Hsame. subst lx2.
  assert (lx1 = lx') by congruence. subst lx1.
  destruct r2 as [rs2| | |]; [exact (push_str_size _ _ _ _ S)| | |]; exfalso; unfold lx_push, tk_push in P; unfold lx_push_str in S;
    destruct (tk_push_str (lx_tk lx) [c]) as (tk & q); rewrite S in P; cbn in P; injection P as <-; discriminate.
Qed.

Lemma frags_bounded : forall fs lx,
  frags_deep lx fs <= 3 * (length (lx_tokens lx) + length (tk_buf (lx_tk lx)) + length (frags_text fs) + 1) + 6.
Proof.
  induction fs as [|f fs IH]; intros lx; cbn [frags_deep].
  - unfold flush_deep. destruct (tk_flush (lx_tk lx)) as (tk & [new| | |]) eqn:T; cbn [snd lx_append_deep]; try lia.
    apply flush_tokens in T. pose proof (append_bounded new (lx_tokens lx)). lia.
  - unfold call_deep. change (frags_text (f :: fs)) with (frag_text f ++ frags_text fs). rewrite app_length.
    assert (H1 : lx_append_deep lx (snd (tk_push_str (lx_tk lx) (frag_text f))) <=
      3 * (length (lx_tokens lx) + length (tk_buf (lx_tk lx)) + length (frag_text f)) + 6).
    { destruct (tk_push_str (lx_tk lx) (frag_text f)) as (tk & [new| | |]) eqn:T; cbn [snd lx_append_deep]; try lia.
      apply push_tokens in T. pose proof (append_bounded new (lx_tokens lx)). lia. }
    destruct (call lx f) as (lx' & [rs| | |]) eqn:C; try lia.
    apply call_size in C. specialize (IH lx'). lia.
Qed.

Theorem reading_bounded : forall name max fs, frags_deep (lx_new name max) fs <= 3 * length (frags_text fs) + 9.
Proof.
  intros name max fs. pose proof (frags_bounded fs (lx_new name max)) as H.
  cbn [lx_new lx_tokens lx_tk tk_new tk_buf length] in H. lia.
Qed.
