(** Properties C82 (the example in the documentation of the crate) and C83 (the constructors
    of [CharsScanner]). *)
From Coq Require Import String List NArith Arith Bool Lia.
From Verif Require Import Base Ident Tokenizer Ast Lex Syntax Io Graph Machine Scanners SpecText SpecSyntax SpecIo TextFacts SyntaxFacts IoFacts SpecParse SpecMachine SpecEvents SpecLaws SpecDoc Message Pure ParseFacts CodeFacts EvFacts EventFacts MachineFacts LangFacts DocFacts DocParse PropSyntax PropParse PropEvents.
Import ListNotations.
Open Scope nat_scope.

Definition doc_sp (c : N) : bool := is_rust_whitespace c || is_ascii_control c.
Definition doc_vis (c : N) : bool := negb (is_ascii_control c).
Lemma doc_sp_space : forall c, doc_sp c = true <-> doc_space c.
Proof.
  intros c. unfold doc_sp, is_rust_whitespace, is_ascii_control, doc_space, unicode_space. cbn [In].
  rewrite !orb_true_iff, !andb_true_iff, !N.leb_le, !N.eqb_eq, N.ltb_lt. lia.
Qed.
Lemma doc_vis_visible : forall c, doc_vis c = true <-> doc_visible c.
Proof.
  intros c. unfold doc_vis, is_ascii_control, doc_visible. rewrite negb_true_iff, orb_false_iff, N.ltb_ge, N.eqb_neq. lia.
Qed.
Lemma doc_program : forall w, a_program (fun c => doc_sp c = true) (fun c => doc_vis c = true) w <-> a_program doc_space doc_visible w.
Proof.
  assert (W : forall (P Q P' Q' : N -> Prop), (forall c, P c -> P' c) -> (forall c, Q c -> Q' c) -> forall w, a_program P Q w -> a_program P' Q' w).
  { intros P Q P' Q' HP HQ.
    assert (Hg : forall g, a_gap P g -> a_gap P' g) by (intros g (Hne & Hg); split; [exact Hne|]; eapply Forall_impl; [exact HP|exact Hg]).
    assert (Hb : forall b, assignments P Q b -> assignments P' Q' b).
    { intros b H. induction H as [|a g r (x & v & -> & Hx & Hv) H1 H2 IH]; constructor; auto. exists x, v. split; [reflexivity|]. split; [exact Hx|].
      destruct Hv as [Hv|[Hv|(u & -> & Hu)]]; auto. right. right. exists u. split; [reflexivity|]. eapply Forall_impl; [|exact Hu]. intros c (A & B). auto. }
    intros w (g1 & x & g2 & g3 & b & -> & H1 & H2 & H3 & H4 & H5). exists g1, x, g2, g3, b. auto 8. }
  intros w. split; apply W; intros c; try apply doc_sp_space; apply doc_vis_visible.
Qed.

Lemma doc_tree : forall w it, program_tree doc_space doc_visible w it -> program_tree (fun c => doc_sp c = true) (fun c => doc_vis c = true) w it.
Proof.
  assert (Hg : forall g, a_gap doc_space g -> a_gap (fun c => doc_sp c = true) g) by (intros g (Hne & Hg); split; [exact Hne|]; eapply Forall_impl; [|exact Hg]; intros c; apply doc_sp_space).
  assert (Hb : forall b ib, body_tree doc_space doc_visible b ib -> body_tree (fun c => doc_sp c = true) (fun c => doc_vis c = true) b ib).
  { intros b ib H. induction H as [|x v iv g r ir Hx Hv H1 H2 IH]; constructor; auto. destruct Hv as [sg v A B C|v A|v A]; constructor; auto.
    eapply Forall_impl; [|exact A]. intros c (X & Y). split; [apply doc_vis_visible; exact X|exact Y]. }
  intros w it (g1 & x & g2 & g3 & b & ib & -> & H1 & H2 & H3 & H4 & H5 & ->). exists g1, x, g2, g3, b, ib. auto 9.
Qed.

Lemma example_library : library_config example_config.
Proof. intros l c. unfold example_config. destruct (str_eqb _ _); [exact I|]. destruct (str_eqb _ _); exact I. Qed.

Lemma example_parts : forall name rs, parse_str name example_grammar = Ok rs -> exists r, names rs (of_string "program") r /\ r_id r = of_string "program" /\
  forall s, (N.of_nat (length (p_rest s)) <= max_count)%N ->
  (a_program doc_space doc_visible (p_rest s) -> exists s', takes rs example_config (NDefs (r_defs r)) s (p_rest s) s' /\ p_rest s' = []) /\
  ((exists s' e w, ev rs example_config (NDefs (r_defs r)) s (Match s' e) /\ goes s w s' /\ a_program doc_space doc_visible w) \/
   fails rs example_config (NDefs (r_defs r)) s) /\
  (forall it, program_tree doc_space doc_visible (p_rest s) it ->
    exists s' inner, tells rs example_config (NDefs (r_defs r)) s (p_rest s) inner s' /\ p_rest s' = [] /\ it = within (of_string "program") inner).
Proof.
  intros name rs E. vm_compute in E. injection E as <-.
  eexists. split; [split; [left; reflexivity|apply same_name_keyed; vm_compute; reflexivity]|]. split; [reflexivity|].
  match goal with |- forall s, _ -> (_ -> exists s', takes ?R _ _ _ _ _ /\ _) /\ _ => set (rs := R) end.
  assert (Hsp : forall c, upper c \/ numeric c -> doc_sp c = false).
  { intros c H. apply not_true_is_false. intros K. apply doc_sp_space in K. unfold upper, numeric, doc_space, unicode_space in *. cbn [In] in K. lia. }
  assert (C1 : forall l, example_config l k_space = ScChars doc_sp (Some 1%N) None) by reflexivity.
  assert (C2 : forall l, example_config l k_visible = ScChars doc_vis (Some 1%N) (Some 1%N)) by reflexivity.
  assert (NN : forall id r, In r rs -> keyed id = keyed (r_id r) -> names rs id r) by (intros id r H1 H2; split; [exact H1|apply same_name_keyed; exact H2]).
  set (nt := fun i => nth i rs (Rule (loc_new []) [] [])).
  assert (Nt : forall i id, In (nt i) rs -> keyed id = keyed (r_id (nt i)) -> names rs id (nt i)) by (intros i id; apply NN).
  assert (K : forall s, (N.of_nat (length (p_rest s)) <= max_count)%N ->
    (a_program (fun c => doc_sp c = true) (fun c => doc_vis c = true) (p_rest s) -> exists s', takes rs example_config (NDefs (r_defs (nt 0))) s (p_rest s) s' /\ p_rest s' = []) /\
    ((exists s' e w, ev rs example_config (NDefs (r_defs (nt 0))) s (Match s' e) /\ goes s w s' /\ a_program (fun c => doc_sp c = true) (fun c => doc_vis c = true) w) \/
     fails rs example_config (NDefs (r_defs (nt 0))) s) /\
    (forall it, program_tree (fun c => doc_sp c = true) (fun c => doc_vis c = true) (p_rest s) it ->
      exists s' inner, tells rs example_config (NDefs (r_defs (nt 0))) s (p_rest s) inner s' /\ p_rest s' = [] /\ it = within i_program inner)).
  { set (cs := fun i => map (fun ts : single_definition => match ts with [Term (Factor _ (PTerminal l [c])) _] => (l, c) | _ => (loc_new [], 0%N) end) (r_defs (nt i))).
    eapply (program_all rs example_config doc_sp doc_vis Hsp C1 C2 (nt 5) (nt 6) (nt 7) (nt 8) (nt 1) (nt 2) (nt 3) (nt 4) (nt 0)).
    1-8: apply Nt; [apply nth_In; unfold rs; cbn [length]; lia|vm_compute; reflexivity].
    1: instantiate (1 := skipn 2 (cs 5)); instantiate (1 := nth 1 (cs 5) (loc_new [], 0%N)); instantiate (1 := nth 0 (cs 5) (loc_new [], 0%N)); vm_compute; reflexivity.
    1: intros c; unfold upper; cbv [cs nt nth map snd skipn rs r_defs In]; lia.
    1: instantiate (1 := skipn 2 (cs 6)); instantiate (1 := nth 1 (cs 6) (loc_new [], 0%N)); instantiate (1 := nth 0 (cs 6) (loc_new [], 0%N)); vm_compute; reflexivity.
    1: intros c; unfold numeric; cbv [cs nt nth map snd skipn rs r_defs In]; lia.
    all: reflexivity. }
  intros s Hl. destruct (K s Hl) as (A & B & D). split; [intros H; apply A, doc_program; exact H|]. split; [|intros it H; apply D, doc_tree; exact H].
  destruct B as [(s' & e & w & V & G & H)|B]; [left|right; exact B]. exists s', e, w. split; [exact V|]. split; [exact G|]. apply doc_program. exact H.
Qed.

Lemma example_ready_pf : forall name, exists rs g m, parse_str name example_grammar = Ok rs /\ parser_for rs example_config g (of_string "program") m.
Proof.
  intros name. destruct (parse_str name example_grammar) as [rs| | |] eqn:E; [|vm_compute in E; discriminate..]. exists rs.
  pose proof (lexed_no_dollar _ _ _ E) as Hd.
  assert (K : exists sy g m, new_syntax rs = Ok sy /\ compile example_config sy = Ok g /\ machine_new g (of_string "program") = Ok (Some m)).
  { vm_compute in E. injection E as <-. do 3 eexists. split; [vm_compute; reflexivity|]. split; vm_compute; reflexivity. }
  destruct K as (sy & g & m & H1 & H2 & H3). exists g, m. split; [reflexivity|]. split; [exists sy; auto|]. split; [exact Hd|exact H3].
Qed.

Lemma example_pf : forall name rs g m debug rd, parse_str name example_grammar = Ok rs -> parser_for rs example_config g (of_string "program") m ->
  reader rd -> ending_of rd = None -> (N.of_nat (length (unread rd)) <= max_count)%N ->
  exists f0, forall fuel, f0 <= fuel ->
    (exists evs, fst (parser_parse debug g fuel m rd) = Ok evs /\ a_program doc_space doc_visible (unread rd) /\
      nested evs /\ tokens evs = unread rd /\ exists s', trail (stand rd) evs s') \/
    (exists e, fst (parser_parse debug g fuel m rd) = Err e /\ ~ a_program doc_space doc_visible (unread rd)).
Proof.
  intros name rs g m debug rd E Hp Hr He Hl. destruct (example_parts _ _ E) as (r & Hn & _ & K). destruct (K (stand rd) Hl) as (Hyes & Hcase & _). clear K.
  pose proof (parser_unique _ _ _ _ _ Hp) as Hu. pose proof (proj1 (library_scanners _ example_library)) as Hnest.
  assert (Hself : names rs (r_id r) r) by (split; [exact (proj1 Hn)|apply same_name_keyed; reflexivity]).
  assert (Hmean : forall o, ev rs example_config (NRef (r_loc r) (r_id r)) (stand rd) o -> means rs example_config (of_string "program") (stand rd) o) by (intros o H; exists r; auto).
  assert (Hfun : forall n s o o', ev rs example_config n s o -> ev rs example_config n s o' -> o = o') by (intros n s o o' V1 V2; exact (ev_fun rs example_config Hu (proj1 (proj2 Hp)) _ _ _ V1 _ V2)).
  destruct Hcase as [(s' & e & w & V & G & Hw)|(x & s' & e & V)].
  - pose proof (ev_ref rs example_config (r_loc r) (r_id r) r _ _ _ Hself V) as V'.
    destruct (parse_complete_api _ _ _ _ _ debug _ _ Hp Hr He (Hmean _ V')) as (f0 & Hf). exists f0. intros fuel Hfu. specialize (Hf fuel Hfu). cbn iota in Hf.
    destruct (p_rest s') as [|c t] eqn:Er.
    + left. cbn [List.tl app] in Hf. rewrite (labels_app _ (ev_nested rs example_config Hnest _ _ _ V)) in Hf. cbn [removed_labels_agree negb] in Hf. rewrite andb_false_r in Hf.
      assert (Ew : p_rest (stand rd) = w) by (destruct G as (G & _); rewrite Er, app_nil_r in G; exact G).
      rewrite Ew in Hyes. destruct (Hyes Hw) as (s2 & (G2 & e2 & V2 & T2) & R2). pose proof (Hfun _ _ _ _ V V2) as X. injection X as <- <-.
      eexists. split; [exact Hf|]. split; [change (unread rd) with (p_rest (stand rd)); rewrite Ew; exact Hw|].
      assert (T : trail (stand rd) (EvBegin (r_loc r) (p_at (stand rd)) (r_id r) :: e ++ [EvEnd (r_loc r) (p_at s') (r_id r)]) s').
      { apply tr_begin. eapply trail_app; [exact T2|]. apply tr_end, tr_nil. }
      apply trail_filter in T. split; [|split; [|exists s'; exact T]].
      * destruct (C34_events_nested _ _ _ _ _ _ _ _ _ Hp Hr Hnest Hf) as (r' & inner & _ & Hi & ->). apply ne_pair; [exact Hi|apply ne_nil].
      * destruct (trail_tokens _ _ _ T) as (Y & _). rewrite Er, app_nil_r in Y. symmetry. exact Y.
    + right. eexists. split; [exact Hf|]. intros Hprog. destruct (Hyes Hprog) as (s2 & (G2 & e2 & V2 & T2) & R2). pose proof (Hfun _ _ _ _ V V2) as X. injection X as <- <-. congruence.
  - pose proof (ev_ref_no rs example_config (r_loc r) (r_id r) r _ _ _ _ Hself V) as V'.
    destruct (parse_complete_api _ _ _ _ _ debug _ _ Hp Hr He (Hmean _ V')) as (f0 & Hf). exists f0. intros fuel Hfu. specialize (Hf fuel Hfu). cbn iota in Hf.
    right. eexists. split; [exact Hf|]. intros Hprog. destruct (Hyes Hprog) as (s2 & (G2 & e2 & V2 & T2) & R2). pose proof (Hfun _ _ _ _ V V2) as X. discriminate.
Qed.

(** C82.  The example of the documentation: its grammar is read whatever the name of its
    source, its graph is compiled, and there is a parser for [program] ... *)
Theorem C82_example_ready : forall name, exists rs g m,
  parse_str name example_grammar = Ok rs /\ parser_for rs example_config g (of_string "program") m.
Proof. exact example_ready_pf. Qed.
Print Assumptions C82_example_ready.
(** ... that always returns, accepts the programs and nothing else, and hands out nested
    events whose tokens, read one after the other, are the text. *)
Theorem C82_example_exact : forall name rs g m debug rd,
  parse_str name example_grammar = Ok rs -> parser_for rs example_config g (of_string "program") m ->
  reader rd -> ending_of rd = None -> (N.of_nat (length (unread rd)) <= max_count)%N ->
  exists f0, forall fuel, f0 <= fuel ->
    (exists evs, fst (parser_parse debug g fuel m rd) = Ok evs /\ a_program doc_space doc_visible (unread rd) /\
      nested evs /\ tokens evs = unread rd /\ exists s', trail (stand rd) evs s') \/
    (exists e, fst (parser_parse debug g fuel m rd) = Err e /\ ~ a_program doc_space doc_visible (unread rd)).
Proof. exact example_pf. Qed.
Print Assumptions C82_example_exact.
(** ... The events of a program are those of its one tree: a pair for each rule, in the order
    of the text ... *)
Lemma tree_sound : forall space visible w it, program_tree space visible w it -> filled it = true.
Proof.
  intros space visible w it (g1 & x & g2 & g3 & b & ib & _ & H1 & H2 & H3 & H4 & H5 & ->).
  assert (Ww : forall n w, sound (within n [Word w])) by (intros n u; apply sound_within; [discriminate|apply sound_word]).
  assert (Hgap : forall g, sound (gap_items g)) by (intros g; apply Ww).
  assert (Hname : forall c, sound (name_items c)) by (intros c; unfold name_items; destruct (N.leb 65 c); apply Ww).
  assert (Hid : forall y, an_identifier y -> sound (identifier_items y)).
  { intros y (c & r & -> & _ & _). apply sound_within; [cbn [flat_map]; unfold name_items; destruct (N.leb 65 c); discriminate|]. apply sound_flat, Hname. }
  assert (Hval : forall v iv, value_tree visible v iv -> sound iv).
  { intros v iv [sg r A B C|y A|u A]; [|apply Hid; exact A|].
    - apply sound_within; [destruct r as [|c r]; [congruence|]; destruct sg; discriminate|]. apply sound_app; [destruct sg; [apply sound_nil|apply sound_word]|]. apply sound_flat. intros c. apply Ww.
    - apply sound_within; [discriminate|]. apply sound_app; [apply sound_word|]. apply sound_app; [|apply sound_word]. apply sound_flat. intros c. apply Ww. }
  assert (Hbody : sound ib).
  { clear - H5 Hgap Hid Hval. induction H5 as [|y v iv g r ir Hx Hv Hg H IH]; [apply sound_nil|]. apply sound_app.
    - apply sound_within; [discriminate|]. apply sound_app; [auto|]. apply sound_app; [apply sound_word|eauto].
    - apply sound_app; [apply sound_word|]. apply sound_app; auto. }
  refine (proj1 (_ : sound _)). apply sound_within; [discriminate|]. repeat (apply sound_app; [first [apply sound_word|apply Hgap|apply Hid; exact H2|exact Hbody]|]). apply sound_word.
Qed.
Theorem C82_example_tree : forall name rs g m debug rd it,
  parse_str name example_grammar = Ok rs -> parser_for rs example_config g (of_string "program") m ->
  reader rd -> ending_of rd = None -> (N.of_nat (length (unread rd)) <= max_count)%N -> program_tree doc_space doc_visible (unread rd) it ->
  exists f0, forall fuel, f0 <= fuel -> exists evs, fst (parser_parse debug g fuel m rd) = Ok evs /\ map seen evs = it.
Proof.
  intros name rs g m debug rd it E Hp Hr He Hl Ht. destruct (example_parts _ _ E) as (r & Hn & Hi & K). destruct (K (stand rd) Hl) as (_ & _ & Htree). clear K.
  destruct (Htree it Ht) as (s' & inner & (G & e & V & Hin) & R & Hit). pose proof (proj1 (library_scanners _ example_library)) as Hnest.
  assert (Hself : names rs (r_id r) r) by (split; [exact (proj1 Hn)|apply same_name_keyed; reflexivity]).
  pose proof (ev_ref rs example_config (r_loc r) (r_id r) r _ _ _ Hself V) as V'.
  assert (Hmean : means rs example_config (of_string "program") (stand rd) (Match s' ((EvBegin (r_loc r) (p_at (stand rd)) (r_id r) :: e) ++ [EvEnd (r_loc r) (p_at s') (r_id r)]))) by (exists r; auto).
  destruct (parse_complete_api _ _ _ _ _ debug _ _ Hp Hr He Hmean) as (f0 & Hf). exists f0. intros fuel Hfu. specialize (Hf fuel Hfu). cbn iota in Hf.
  rewrite R in Hf. cbn [List.tl app] in Hf. rewrite (labels_app _ (ev_nested rs example_config Hnest _ _ _ V)) in Hf. cbn [removed_labels_agree negb] in Hf. rewrite andb_false_r in Hf.
  eexists. split; [exact Hf|].
  assert (Hs : map seen (EvBegin (r_loc r) (p_at (stand rd)) (r_id r) :: e ++ [EvEnd (r_loc r) (p_at s') (r_id r)]) = it).
  { rewrite Hit, Hi. unfold within. cbn [map seen]. rewrite map_app, Hin. reflexivity. }
  rewrite filled_kept; [exact Hs|]. rewrite Hs. eapply tree_sound. exact Ht.
Qed.
Print Assumptions C82_example_tree.
(** ... and every program has a tree. *)
Theorem C82_trees : forall w, a_program doc_space doc_visible w <-> exists it, program_tree doc_space doc_visible w it.
Proof.
  intros w. split.
  - intros (g1 & x & g2 & g3 & b & -> & H1 & H2 & H3 & H4 & H5).
    assert (K : exists ib, body_tree doc_space doc_visible b ib).
    { clear - H5. induction H5 as [|a g r (x & v & -> & Hx & Hv) H1 H2 (ir & IH)]; [exists []; constructor|].
      assert (Kv : exists iv, value_tree doc_visible v iv).
      { destruct Hv as [(sg & u & -> & A & B & C)|[A|(u & -> & A)]]; eexists; constructor; eassumption. }
      destruct Kv as (iv & Kv). eexists. apply bt_more; eassumption. }
    destruct K as (ib & K). eexists. exists g1, x, g2, g3, b, ib. auto 9.
  - intros (it & g1 & x & g2 & g3 & b & ib & -> & H1 & H2 & H3 & H4 & H5 & _). exists g1, x, g2, g3, b. split; [reflexivity|]. do 4 (split; [assumption|]).
    clear - H5. induction H5 as [|y v iv g r ir Hx Hv Hg H IH]; [constructor|]. apply as_more; [|exact Hg|exact IH]. exists y, v. split; [reflexivity|]. split; [exact Hx|].
    destruct Hv as [sg u A B C|u A|u A]; [left; exists sg, u; auto|right; left; exact A|right; right; exists u; auto].
Qed.
Print Assumptions C82_trees.
(** ... of which it has only one. *)
Theorem C82_one_tree : forall w it it', (N.of_nat (length w) <= max_count)%N ->
  program_tree doc_space doc_visible w it -> program_tree doc_space doc_visible w it' -> it = it'.
Proof.
  intros w it it' Hl H1 H2. destruct (example_ready_pf []) as (rs & g & m & E & Hp). destruct (text_reader_ok w) as (R1 & R2 & R3).
  assert (R : unread (text_reader w) = w) by (change (unread (text_reader w)) with (p_rest (stand (text_reader w))); rewrite R3; reflexivity).
  rewrite <- R in H1, H2, Hl.
  destruct (C82_example_tree _ _ _ _ false _ _ E Hp R1 R2 Hl H1) as (f1 & F1). destruct (C82_example_tree _ _ _ _ false _ _ E Hp R1 R2 Hl H2) as (f2 & F2).
  destruct (F1 (f1 + f2) ltac:(lia)) as (e1 & P1 & <-). destruct (F2 (f1 + f2) ltac:(lia)) as (e2 & P2 & <-). rewrite P1 in P2. injection P2 as ->. reflexivity.
Qed.
Print Assumptions C82_one_tree.
(** A program, with a variable whose name begins like the word that ends programs ... *)
Ltac spell := match goal with |- Forall _ ?l => let l' := eval vm_compute in l in change l with l' end.
Definition small_program : str := txt "PROGRAM P BEGIN ENDED:=-12; A1:=""x;""; END.".
Example C82_program : a_program doc_space doc_visible small_program /\
  exists evs, parse_case example_config example_grammar (of_string "program") true 2000 (text_reader small_program) = Some (Ok evs).
Proof.
  assert (G : a_gap doc_space [32%N]) by (split; [discriminate|]; constructor; [left; lia|constructor]).
  split; [|vm_compute; eexists; reflexivity].
  exists [32%N], (txt "P"), [32%N], [32%N], (txt "ENDED:=-12; A1:=""x;""; "). split; [reflexivity|]. split; [exact G|].
  split; [exists 80%N, []; split; [reflexivity|]; split; [unfold upper; lia|constructor]|]. split; [exact G|]. split; [exact G|].
  refine (as_more _ _ (txt "ENDED:=-12") [32%N] (txt "A1:=""x;""; ") _ G (as_more _ _ (txt "A1:=""x;""") [32%N] [] _ G (as_none _ _))).
  - exists (txt "ENDED"), (txt "-12"). split; [reflexivity|]. split.
    + exists 69%N, (txt "NDED"). split; [reflexivity|]. split; [unfold upper; lia|]. spell; repeat (apply Forall_cons; [left; unfold upper; lia|]). apply Forall_nil.
    + left. exists (txt "-"), (txt "12"). split; [reflexivity|]. split; [right; reflexivity|]. split; [discriminate|].
      spell; repeat (apply Forall_cons; [unfold numeric; lia|]). apply Forall_nil.
  - exists (txt "A1"), (txt """x;"""). split; [reflexivity|]. split.
    + exists 65%N, (txt "1"). split; [reflexivity|]. split; [unfold upper; lia|]. spell; repeat (apply Forall_cons; [right; unfold numeric; lia|]). apply Forall_nil.
    + right. right. exists (txt "x;"). split; [reflexivity|]. spell; repeat (apply Forall_cons; [split; [unfold doc_visible; lia|discriminate]|]). apply Forall_nil.
Qed.
(** ... its tree ... *)
Example C82_tree : exists evs, parse_case example_config example_grammar (of_string "program") true 2000 (text_reader (txt "PROGRAM P BEGIN E:=-1; END.")) = Some (Ok evs) /\
  map seen evs = within (of_string "program") ([Word (of_string "PROGRAM")] ++ gap_items [32%N] ++ identifier_items (of_string "P") ++ gap_items [32%N] ++
    [Word (of_string "BEGIN")] ++ gap_items [32%N] ++
    (within (of_string "assignment") (identifier_items (of_string "E") ++ [Word (of_string ":=")] ++ number_items (of_string "-") (of_string "1")) ++ [Word (of_string ";")] ++ gap_items [32%N] ++ []) ++
    [Word (of_string "END.")]).
Proof. vm_compute. eexists. split; reflexivity. Qed.
(** ... and a text that is none: in strings there are no line breaks. *)
Example C82_no_program : exists e, let t := txt "PROGRAM P BEGIN A:=""x" ++ [10%N] ++ txt """; END." in
  parse_case example_config example_grammar (of_string "program") true 2000 (text_reader t) = Some (Err e).
Proof. vm_compute. eexists. reflexivity. Qed.

(** C83.  [matched p t]: the characters at the head of [t] that satisfy [p]. *)
Fixpoint matched (p : N -> bool) (t : str) : str :=
  match t with [] => [] | c :: r => if p c then c :: matched p r else [] end.
Lemma run_matched : forall p mx s w s', longest_run p mx s w s' ->
  w = match mx with None => matched p (p_rest s) | Some m => firstn (N.to_nat m) (matched p (p_rest s)) end.
Proof.
  intros p mx s w s' ((G & _) & Hw & Hm & Hstop). rewrite G. clear G.
  assert (K : matched p (w ++ p_rest s') = w ++ matched p (p_rest s')).
  { clear Hm Hstop. induction Hw as [|c w Hc Hw IH]; cbn [matched app]; [reflexivity|]. rewrite Hc, IH. reflexivity. }
  rewrite K. destruct mx as [m|].
  - specialize (Hm m eq_refl). rewrite firstn_app. rewrite (firstn_all2 w) by lia. destruct Hstop as [E|[E|(c & r & E & Hc)]].
    + rewrite E. cbn. rewrite firstn_nil, app_nil_r. reflexivity.
    + injection E as ->. rewrite Nat2N.id, Nat.sub_diag. cbn. rewrite app_nil_r. reflexivity.
    + rewrite E. cbn [matched]. rewrite Hc, firstn_nil, app_nil_r. reflexivity.
  - destruct Hstop as [E|[E|(c & r & E & Hc)]]; [rewrite E; cbn; rewrite app_nil_r; reflexivity|discriminate|].
    rewrite E. cbn [matched]. rewrite Hc, app_nil_r. reflexivity.
Qed.
(** The scanner reads [w]; or it does not match, and reads nothing. *)
Definition reads_word (debug : bool) (fuel : nat) (sc : scanner) (def : location) (rd : mreader) (w : str) : Prop :=
  exists rd', special_scan debug fuel sc def rd = (Ok (RMatch [EvToken def (p_at (stand rd)) w]), rd') /\ goes (stand rd) w (stand rd').
Definition reads_nothing (debug : bool) (fuel : nat) (sc : scanner) (def : location) (rd : mreader) : Prop :=
  exists rd', special_scan debug fuel sc def rd = (Ok RUnmatch, rd') /\ stand rd' = stand rd.
Lemma constructed : forall debug fuel p mn mx def rd, reader rd -> ending_of rd = None -> length (unread rd) < fuel ->
  let w := match mx with None => matched p (unread rd) | Some m => firstn (N.to_nat m) (matched p (unread rd)) end in
  if match mn with None => false | Some n => N.ltb (N.of_nat (length w)) n end
  then reads_nothing debug fuel (ScChars p mn mx) def rd else reads_word debug fuel (ScChars p mn mx) def rd w.
Proof.
  intros debug fuel p mn mx def rd Hr He Hf w. destruct (chars_scanner debug fuel p mn mx def rd Hr He Hf) as (v & s' & Hrun & H).
  assert (Ev : v = w) by (exact (run_matched _ _ _ _ _ Hrun)). rewrite <- Ev. destruct H as [((n & -> & Hn) & rd' & H1 & H2)|(Hn & rd' & H1 & H2)].
  - rewrite (proj2 (N.ltb_lt _ _) Hn). exists rd'. split; [exact H1|exact H2].
  - destruct mn as [n|].
    + destruct (N.ltb_spec (N.of_nat (length v)) n); [exfalso; apply Hn; exists n; auto|]. exists rd'. split; [exact H1|]. rewrite H2. exact (proj1 Hrun).
    + exists rd'. split; [exact H1|]. rewrite H2. exact (proj1 Hrun).
Qed.
Section Constructors.
Variables (debug : bool) (fuel : nat) (p : N -> bool) (def : location) (rd : mreader).
Hypotheses (Hr : reader rd) (He : ending_of rd = None) (Hf : length (unread rd) < fuel).
Notation reads sc w := (reads_word debug fuel sc def rd w).
Notation reads_not sc := (reads_nothing debug fuel sc def rd).
Lemma one_of_pf : match unread rd with
  | c :: _ => if p c then reads (chars_one_of p) [c] else reads_not (chars_one_of p)
  | [] => reads_not (chars_one_of p) end.
Proof.
  pose proof (constructed debug fuel p (Some 1%N) (Some 1%N) def rd Hr He Hf) as K. cbn beta iota zeta in K. unfold chars_one_of, chars_with_range, chars_new.
  destruct (unread rd) as [|c t]; cbn [matched] in K; [exact K|]. destruct (p c); exact K.
Qed.
Lemma zero_pf : reads (chars_zero_or_more p) (matched p (unread rd)).
Proof. exact (constructed debug fuel p None None def rd Hr He Hf). Qed.
Lemma one_or_more_pf : match matched p (unread rd) with [] => reads_not (chars_one_or_more p) | w => reads (chars_one_or_more p) w end.
Proof.
  pose proof (constructed debug fuel p (Some 1%N) None def rd Hr He Hf) as K. cbn beta iota zeta in K. unfold chars_one_or_more, chars_with_min, chars_new.
  destruct (matched p (unread rd)) as [|c t]; [exact K|]. destruct (N.ltb_spec (N.of_nat (length (c :: t))) 1); [cbn [length] in *; lia|exact K].
Qed.
Lemma with_min_pf : forall n, (n <= N.of_nat (length (matched p (unread rd))) -> reads (chars_with_min p n) (matched p (unread rd)))%N /\
  (N.of_nat (length (matched p (unread rd))) < n -> reads_not (chars_with_min p n))%N.
Proof.
  intros n. pose proof (constructed debug fuel p (Some n) None def rd Hr He Hf) as K. cbn beta iota zeta in K.
  destruct (N.ltb_spec (N.of_nat (length (matched p (unread rd)))) n); split; intros; try lia; exact K.
Qed.
Lemma with_max_pf : forall n, reads (chars_with_max p n) (firstn (N.to_nat n) (matched p (unread rd))).
Proof. intros n. exact (constructed debug fuel p None (Some n) def rd Hr He Hf). Qed.
Lemma with_range_pf : forall n n', ((n <= n' /\ n <= N.of_nat (length (matched p (unread rd))) ->
    reads (chars_with_range p n n') (firstn (N.to_nat n') (matched p (unread rd)))) /\
  (n' < n \/ N.of_nat (length (matched p (unread rd))) < n -> reads_not (chars_with_range p n n')))%N.
Proof.
  intros n n'. pose proof (constructed debug fuel p (Some n) (Some n') def rd Hr He Hf) as K. cbn beta iota zeta in K. rewrite firstn_length in K.
  destruct (N.ltb_spec (N.of_nat (Nat.min (N.to_nat n') (length (matched p (unread rd))))) n); split; intros; try lia; exact K.
Qed.
End Constructors.

(** On any reader whose source does not fail, with enough fuel: one character; as many as
    there are; as many as there are but one at least; ... *)
Theorem C83_one_of : forall debug fuel p def rd, reader rd -> ending_of rd = None -> length (unread rd) < fuel ->
  match unread rd with
  | c :: _ => if p c then reads_word debug fuel (chars_one_of p) def rd [c] else reads_nothing debug fuel (chars_one_of p) def rd
  | [] => reads_nothing debug fuel (chars_one_of p) def rd end.
Proof. exact one_of_pf. Qed.
Print Assumptions C83_one_of.
Theorem C83_zero_or_more : forall debug fuel p def rd, reader rd -> ending_of rd = None -> length (unread rd) < fuel ->
  reads_word debug fuel (chars_zero_or_more p) def rd (matched p (unread rd)).
Proof. exact zero_pf. Qed.
Print Assumptions C83_zero_or_more.
Theorem C83_one_or_more : forall debug fuel p def rd, reader rd -> ending_of rd = None -> length (unread rd) < fuel ->
  match matched p (unread rd) with [] => reads_nothing debug fuel (chars_one_or_more p) def rd | w => reads_word debug fuel (chars_one_or_more p) def rd w end.
Proof. exact one_or_more_pf. Qed.
Print Assumptions C83_one_or_more.
Theorem C83_with_min : forall debug fuel p def rd, reader rd -> ending_of rd = None -> length (unread rd) < fuel -> forall n,
  (n <= N.of_nat (length (matched p (unread rd))) -> reads_word debug fuel (chars_with_min p n) def rd (matched p (unread rd)))%N /\
  (N.of_nat (length (matched p (unread rd))) < n -> reads_nothing debug fuel (chars_with_min p n) def rd)%N.
Proof. exact with_min_pf. Qed.
Print Assumptions C83_with_min.
Theorem C83_with_max : forall debug fuel p def rd, reader rd -> ending_of rd = None -> length (unread rd) < fuel -> forall n,
  reads_word debug fuel (chars_with_max p n) def rd (firstn (N.to_nat n) (matched p (unread rd))).
Proof. exact with_max_pf. Qed.
Print Assumptions C83_with_max.
(** (With the bounds the wrong way round it never matches.) *)
Theorem C83_with_range : forall debug fuel p def rd, reader rd -> ending_of rd = None -> length (unread rd) < fuel -> forall n n',
  ((n <= n' /\ n <= N.of_nat (length (matched p (unread rd))) ->
    reads_word debug fuel (chars_with_range p n n') def rd (firstn (N.to_nat n') (matched p (unread rd)))) /\
  (n' < n \/ N.of_nat (length (matched p (unread rd))) < n -> reads_nothing debug fuel (chars_with_range p n n') def rd))%N.
Proof. exact with_range_pf. Qed.
Print Assumptions C83_with_range.
Example C83_case : let p c := N.leb 97 c in let scan sc := fst (special_scan true 10 sc (loc_new []) (text_reader (txt "abc1"))) in
  let word w := Ok (RMatch [EvToken (loc_new []) (loc_new []) w]) in
  length (unread (text_reader (txt "abc1"))) < 10 /\ scan (chars_one_of p) = word (txt "a") /\ scan (chars_zero_or_more p) = word (txt "abc") /\
  scan (chars_one_or_more p) = word (txt "abc") /\ scan (chars_with_min p 4) = Ok RUnmatch /\ scan (chars_with_max p 0) = word [] /\
  scan (chars_with_range p 2 2) = word (txt "ab") /\ scan (chars_with_range p 2 1) = Ok RUnmatch.
Proof. vm_compute. repeat split. repeat constructor. Qed.

(** [RegExScanner::from_str]: an expression that the engine takes gives a scanner that is named
    after it and, with a mark outstanding, reads what the engine finds at once in the next 257
    characters, up to 256 of them; one that the engine refuses is reported at the given place,
    in the words of the engine. *)
Lemma from_str_pf : forall engine def re,
  match engine re with
  | inl find => exists sc, regex_from_str engine def re = Ok sc /\ scanner_symbol sc = txt "?" ++ re ++ txt "?" /\
      forall debug rd, reader rd -> ending_of rd = None -> ub_stack (mr_ub rd) <> [] ->
      match find (firstn 257 (unread rd)) with
      | Some (0, len) =>
          if Nat.leb (length (firstn len (firstn 257 (unread rd)))) 256
          then reads_word debug 0 sc def rd (firstn len (firstn 257 (unread rd)))
          else fst (special_scan debug 0 sc def rd) = Err (Error_ (p_at (stand rd)) MRegexTooLong)
      | _ => reads_nothing debug 0 sc def rd
      end
  | inr why => exists e, regex_from_str engine def re = Err e /\ e_loc e = def /\
      forall plain, show_error plain e = show_location def ++ txt " Malformed regular expression: " ++ why
  end.
Proof.
  intros engine def re. unfold regex_from_str. destruct (engine re) as [find|why].
  - exists (ScRegex re find). split; [reflexivity|]. split; [reflexivity|]. intros debug rd Hr He Hm.
    destruct (C45_regex_scanner debug re find def rd Hr He Hm) as (rd' & H).
    change (window (stand rd)) with (firstn 257 (unread rd)) in H. set (t := firstn 257 (unread rd)) in *. clearbody t.
    destruct (find t) as [[[|k] len]|].
    + cbv zeta in H. destruct (Nat.leb (length (firstn len t)) 256); [exists rd'; exact H|rewrite H; reflexivity].
    + exists rd'. exact H.
    + exists rd'. exact H.
  - eexists. split; [reflexivity|]. split; [reflexivity|]. intros plain. reflexivity.
Qed.
Theorem C83_from_str : forall engine def re,
  match engine re with
  | inl find => exists sc, regex_from_str engine def re = Ok sc /\ scanner_symbol sc = txt "?" ++ re ++ txt "?" /\
      forall debug rd, reader rd -> ending_of rd = None -> ub_stack (mr_ub rd) <> [] ->
      match find (firstn 257 (unread rd)) with
      | Some (0, len) =>
          if Nat.leb (length (firstn len (firstn 257 (unread rd)))) 256
          then reads_word debug 0 sc def rd (firstn len (firstn 257 (unread rd)))
          else fst (special_scan debug 0 sc def rd) = Err (Error_ (p_at (stand rd)) MRegexTooLong)
      | _ => reads_nothing debug 0 sc def rd
      end
  | inr why => exists e, regex_from_str engine def re = Err e /\ e_loc e = def /\
      forall plain, show_error plain e = show_location def ++ txt " Malformed regular expression: " ++ why
  end.
Proof. exact from_str_pf. Qed.
Print Assumptions C83_from_str.
(** An engine that knows one expression, as in src/parser/test/special_sequence.rs. *)
Definition small_engine (re : str) : (str -> option (nat * nat)) + str :=
  if str_eqb re (txt "[a-e]+") then inl (fun t => match length (matched (fun c => N.leb 97 c && N.leb c 101)%bool t) with 0 => None | n => Some (0, n) end)
  else inr (txt "unknown").
Example C83_from_str_case : let rd := snd (perform true [OMark] (text_reader (txt "abx"))) in
  reader rd /\ ub_stack (mr_ub rd) <> [] /\
  (exists sc, regex_from_str small_engine (loc_new []) (txt "[a-e]+") = Ok sc /\
    fst (special_scan true 0 sc (loc_new []) rd) = Ok (RMatch [EvToken (loc_new []) (loc_new []) (txt "ab")])) /\
  (exists e, regex_from_str small_engine (loc_new []) (txt "\xxx") = Err e).
Proof.
  split; [eapply (rd_op true OMark (text_reader (txt "abx"))); [apply rd_new|vm_compute; reflexivity]|].
  split; [vm_compute; discriminate|]. split; [|eexists; vm_compute; reflexivity].
  exists (match regex_from_str small_engine (loc_new []) (txt "[a-e]+") with Ok sc => sc | _ => ScDefault [] end). split; vm_compute; reflexivity.
Qed.
