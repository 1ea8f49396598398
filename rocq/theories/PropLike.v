(** Properties C58-C60: what parsing does not depend on.

    [same_answer]: equal answers (panics are not told apart).  [same_but_definitions]: equal
    up to the locations of definitions in the events.  [like_answer eq B X F]: equal up to
    labels related by [B] and what errors say is expected related by [X] (SpecLike.v). *)
From Coq Require Import String List NArith Arith Bool Lia Permutation.
From Verif Require Import Base Ident Tokenizer Ast Lex Syntax Io Graph Machine SpecText SpecSyntax SpecIo TextFacts SyntaxFacts IoFacts SpecTok SpecLex SpecGram SpecTree TreeFacts ShowFacts SpecParse SpecMachine SpecEvents SpecLike Pure ParseFacts CodeFacts EvFacts MachineFacts LikeFacts LikeUse PropSyntax PropParse PropEvents.
Import ListNotations.
Open Scope nat_scope.

(** ** C58.  How a syntax is written down *)
Theorem C58_locations_irrelevant : forall rs1 rs2 cfg, Forall2 eq_but_loc rs1 rs2 -> placeless cfg ->
  forall g1 g2 id m1 m2 debug fuel1 rd,
  parser_for rs1 cfg g1 id m1 -> parser_for rs2 cfg g2 id m2 -> reader rd -> ending_of rd = None ->
  fst (parser_parse debug g1 fuel1 m1 rd) <> OutOfFuel ->
  exists f0, forall fuel, f0 <= fuel ->
    same_but_definitions (fst (parser_parse debug g1 fuel1 m1 rd)) (fst (parser_parse debug g2 fuel m2 rd)).
Proof. exact parse_moved. Qed.
Print Assumptions C58_locations_irrelevant.
Lemma but_loc_sym : forall a b, Forall2 eq_but_loc a b -> Forall2 eq_but_loc b a.
Proof. intros a b H. induction H as [|x y a b Hxy H IH]; constructor; [unfold eq_but_loc in *; symmetry; exact Hxy|exact IH]. Qed.
Lemma read_filled : forall name s rs, parse_str name s = Ok rs -> Forall (fun r => filled_defs (r_defs r)) rs.
Proof.
  intros name s rs H. apply parse_wf in H. eapply Forall_impl; [|exact H]. intros r Hr. apply wf_filled. apply Hr.
Qed.
Lemma rewritten_pf : forall rs1 name2 s2 rs2 cfg g1 id m1, parse_str name2 s2 = Ok rs2 -> Forall2 eq_but_loc rs2 rs1 -> placeless cfg ->
  parser_for rs1 cfg g1 id m1 ->
  exists rs2 g2 m2, parse_str name2 s2 = Ok rs2 /\ parser_for rs2 cfg g2 id m2 /\
  forall debug fuel1 rd, reader rd -> ending_of rd = None -> fst (parser_parse debug g1 fuel1 m1 rd) <> OutOfFuel ->
  exists f0, forall fuel, f0 <= fuel ->
    same_but_definitions (fst (parser_parse debug g1 fuel1 m1 rd)) (fst (parser_parse debug g2 fuel m2 rd)).
Proof.
  intros rs1 name2 s2 rs2 cfg g1 id m1 H2 HF Hc Hp. apply but_loc_sym in HF.
  destruct (moved_parser rs1 rs2 cfg g1 id m1 HF (read_filled _ _ _ H2) Hp) as (g2 & m2 & Hp2). exists rs2, g2, m2. split; [exact H2|]. split; [exact Hp2|].
  intros debug fuel1 rd Hr He Hf. eapply parse_moved; eassumption.
Qed.
(** Two texts of the same symbols (other gaps, comments, line breaks, alternative
    spellings of brackets and so on): the second gives a parser if the first does, and it
    answers the same. *)
Theorem C58_same_symbols : forall name1 name2 s1 s2 ts1 ts2 ss rs1 cfg g1 id m1,
  lexes (loc_new name1) s1 ts1 -> lexes (loc_new name2) s2 ts2 -> symbols ts1 ss -> symbols ts2 ss ->
  parse_str name1 s1 = Ok rs1 -> placeless cfg -> parser_for rs1 cfg g1 id m1 ->
  exists rs2 g2 m2, parse_str name2 s2 = Ok rs2 /\ parser_for rs2 cfg g2 id m2 /\
  forall debug fuel1 rd, reader rd -> ending_of rd = None -> fst (parser_parse debug g1 fuel1 m1 rd) <> OutOfFuel ->
  exists f0, forall fuel, f0 <= fuel ->
    same_but_definitions (fst (parser_parse debug g1 fuel1 m1 rd)) (fst (parser_parse debug g2 fuel m2 rd)).
Proof.
  intros name1 name2 s1 s2 ts1 ts2 ss rs1 cfg g1 id m1 L1 L2 S1 S2 H1 Hc Hp.
  destruct (same_symbols _ _ _ _ _ _ _ _ L1 L2 S1 S2 H1) as (rs2 & H2 & HF). eapply rewritten_pf; eassumption.
Qed.
Print Assumptions C58_same_symbols.
(** A syntax that is displayed and read back (when it can be, see C18). *)
Theorem C58_display : forall name name' s rs cfg g1 id m1, parse_str name s = Ok rs -> Forall group_ok_rule rs ->
  placeless cfg -> parser_for rs cfg g1 id m1 ->
  exists rs2 g2 m2, parse_str name' (show_rules rs) = Ok rs2 /\ parser_for rs2 cfg g2 id m2 /\
  forall debug fuel1 rd, reader rd -> ending_of rd = None -> fst (parser_parse debug g1 fuel1 m1 rd) <> OutOfFuel ->
  exists f0, forall fuel, f0 <= fuel ->
    same_but_definitions (fst (parser_parse debug g1 fuel1 m1 rd)) (fst (parser_parse debug g2 fuel m2 rd)).
Proof.
  intros name name' s rs cfg g1 id m1 H Hg Hc Hp. pose proof (parse_wf _ _ _ H) as Hw.
  destruct (show_parse name' rs Hw Hg) as (rs2 & H2 & HF). eapply rewritten_pf; eassumption.
Qed.
Print Assumptions C58_display.
(** The hypothesis on the configuration holds when it picks among the scanners of the
    library by the content of the special sequence. *)
Theorem C58_library : forall cfg : config, (forall l c, library_scanner (cfg l c)) -> (forall l l' c, cfg l c = cfg l' c) -> placeless cfg.
Proof. exact library_placeless. Qed.
Print Assumptions C58_library.
Definition tight : str := txt "S={A|'b'},['c'];A='a'-'x';".
Definition loose : str := txt "(* start *) S = (: A / 'b' :) , (/ 'c' /) .   A = 'a' (* but *) - 'x' .".
Example C58_case :
  parse_case default_config tight (txt "S") true 200 (text_reader (txt "ab")) =
    Some (Ok [bg 1 1 "S"; bg 4 1 "A"; tk 19 1 "a"; en 4 2 "A"; tk 6 2 "b"; en 1 3 "S"]) /\
  parse_case default_config loose (txt "S") true 200 (text_reader (txt "ab")) =
    Some (Ok [bg 13 1 "S"; bg 20 1 "A"; tk 51 1 "a"; en 20 2 "A"; tk 24 2 "b"; en 13 3 "S"]) /\
  map (reloc_rule (fun _ => loc_new []) (fun _ => loc_new [])) (rules_of loose) = map (reloc_rule (fun _ => loc_new []) (fun _ => loc_new [])) (rules_of tight).
Proof. vm_compute. auto. Qed.
(** A configuration that looks at the place does make a difference. *)
Definition by_column : config := fun l c => if N.eqb (l_columns l) 3 then ScChars (fun _ => true) (Some 1%N) (Some 1%N) else ScDefault c.
Example C58_place_matters :
  parse_case by_column (txt "S=?x?;") (txt "S") true 100 (text_reader (txt "a")) = Some (Ok [bg 1 1 "S"; tk 3 1 "a"; en 1 2 "S"]) /\
  exists e, parse_case by_column (txt "S =?x?;") (txt "S") true 100 (text_reader (txt "a")) = Some (Err e).
Proof. split; [vm_compute; reflexivity|]. eexists. vm_compute. reflexivity. Qed.

(** ** C59.  The order of the rules, and rules that are not used *)
Lemma order_pf : forall rs1 rs2 cfg g1 id m1, Permutation rs1 rs2 -> Forall (fun r => filled_defs (r_defs r)) rs1 ->
  parser_for rs1 cfg g1 id m1 ->
  exists g2 m2, parser_for rs2 cfg g2 id m2 /\
  forall debug fuel1 rd, reader rd -> ending_of rd = None -> fst (parser_parse debug g1 fuel1 m1 rd) <> OutOfFuel ->
  exists f0, forall fuel, f0 <= fuel ->
    same_answer (fst (parser_parse debug g1 fuel1 m1 rd)) (fst (parser_parse debug g2 fuel m2 rd)).
Proof.
  intros rs1 rs2 cfg g1 id m1 Hrs Hf Hp. destruct (order_parser _ _ _ _ _ _ Hrs Hf Hp) as (g2 & m2 & Hp2). exists g2, m2. split; [exact Hp2|].
  intros debug fuel1 rd Hr He Hn. eapply parse_order; try eassumption. intros r. split; apply Permutation_in; [exact Hrs|apply Permutation_sym; exact Hrs].
Qed.
(** The rules of a text, in any other order, make a parser that answers the same. *)
Theorem C59_order : forall name s rs1 rs2 cfg g1 id m1, parse_str name s = Ok rs1 -> Permutation rs1 rs2 ->
  parser_for rs1 cfg g1 id m1 ->
  exists g2 m2, parser_for rs2 cfg g2 id m2 /\
  forall debug fuel1 rd, reader rd -> ending_of rd = None -> fst (parser_parse debug g1 fuel1 m1 rd) <> OutOfFuel ->
  exists f0, forall fuel, f0 <= fuel ->
    same_answer (fst (parser_parse debug g1 fuel1 m1 rd)) (fst (parser_parse debug g2 fuel m2 rd)).
Proof. intros name s rs1 rs2 cfg g1 id m1 H Hrs Hp. exact (order_pf _ _ _ _ _ _ Hrs (read_filled _ _ _ H) Hp). Qed.
Print Assumptions C59_order.
(** Two syntaxes that agree on the rules parsing [id] can come by. *)
Lemma reached_pf : forall rs1 rs2 cfg id, (forall r, reached rs1 id r -> In r rs2) ->
  (forall r l x, reached rs1 id r -> refers_deep r l x -> defined rs2 x -> defined rs1 x) -> no_forwarding cfg ->
  forall g1 g2 m1 m2 debug fuel1 rd,
  parser_for rs1 cfg g1 id m1 -> parser_for rs2 cfg g2 id m2 -> reader rd -> ending_of rd = None ->
  fst (parser_parse debug g1 fuel1 m1 rd) <> OutOfFuel ->
  exists f0, forall fuel, f0 <= fuel ->
    same_answer (fst (parser_parse debug g1 fuel1 m1 rd)) (fst (parser_parse debug g2 fuel m2 rd)).
Proof.
  intros rs1 rs2 cfg id H1 H2 H3 g1 g2 m1 m2 debug fuel1 rd Hp1 Hp2 Hr He Hf.
  eapply parse_reached; try eassumption. apply parser_unique in Hp1. exact Hp1.
Qed.
Theorem C59_reachable : forall rs1 rs2 cfg id, (forall r, reached rs1 id r -> In r rs2) ->
  (forall r l x, reached rs1 id r -> refers_deep r l x -> defined rs2 x -> defined rs1 x) -> no_forwarding cfg ->
  forall g1 g2 m1 m2 debug fuel1 rd,
  parser_for rs1 cfg g1 id m1 -> parser_for rs2 cfg g2 id m2 -> reader rd -> ending_of rd = None ->
  fst (parser_parse debug g1 fuel1 m1 rd) <> OutOfFuel ->
  exists f0, forall fuel, f0 <= fuel ->
    same_answer (fst (parser_parse debug g1 fuel1 m1 rd)) (fst (parser_parse debug g2 fuel m2 rd)).
Proof. exact reached_pf. Qed.
Print Assumptions C59_reachable.
(** In particular, rules may be added to a syntax that is complete. *)
Theorem C59_more_rules : forall rs more cfg id g1 g2 m1 m2 debug fuel1 rd,
  (forall r l x, In r rs -> refers_deep r l x -> defined rs x) -> no_forwarding cfg ->
  parser_for rs cfg g1 id m1 -> parser_for (rs ++ more) cfg g2 id m2 -> reader rd -> ending_of rd = None ->
  fst (parser_parse debug g1 fuel1 m1 rd) <> OutOfFuel ->
  exists f0, forall fuel, f0 <= fuel ->
    same_answer (fst (parser_parse debug g1 fuel1 m1 rd)) (fst (parser_parse debug g2 fuel m2 rd)).
Proof.
  intros rs more cfg id g1 g2 m1 m2 debug fuel1 rd Hc Hn. apply reached_pf; [| |exact Hn].
  - intros r Hr. apply in_or_app. left. eapply reached_in. exact Hr.
  - intros r l x Hr Hx _. eapply Hc; [eapply reached_in; exact Hr|exact Hx].
Qed.
Print Assumptions C59_more_rules.
Example C59_case :
  parse_case default_config (txt "S=A,'b';A='a';") (txt "S") true 200 (text_reader (txt "ab")) =
    Some (Ok [bg 1 1 "S"; bg 3 1 "A"; tk 11 1 "a"; en 3 2 "A"; tk 5 2 "b"; en 1 3 "S"]) /\
  parse_case default_config (txt "S=A,'b';A='a';B=S|{A};") (txt "S") true 200 (text_reader (txt "ab")) =
    Some (Ok [bg 1 1 "S"; bg 3 1 "A"; tk 11 1 "a"; en 3 2 "A"; tk 5 2 "b"; en 1 3 "S"]) /\
  firstn 2 (rules_of (txt "S=A,'b';A='a';B=S|{A};")) = rules_of (txt "S=A,'b';A='a';").
Proof. split; [vm_compute; reflexivity|]. split; [vm_compute; reflexivity|]. vm_compute. reflexivity. Qed.
(** The rules that are reached, and the other hypotheses of [C59_more_rules]. *)
Definition few : list rule := rules_of (txt "S=A,'b';A='a';").
Example C59_reached_case : (forall r l x, In r few -> refers_deep r l x -> defined few x) /\
  no_forwarding default_config /\ exists g m, parser_for few default_config g (txt "S") m.
Proof.
  split; [|split; [apply library_tokens; intros l c; exact I|]].
  - apply all_defined_ok. vm_compute. reflexivity.
  - destruct (parse_case_ok default_config (txt "S=A,'b';A='a';") (txt "S") true 200 (text_reader (txt "ab")) _ eq_refl) as (g & m & H & _). eauto.
Qed.
(** Forwarding reaches any rule, so the rules around do matter then. *)
Definition forwards_x : config := fun _ _ => ScUser (txt "f") (fun _ => SpRet (RForward (txt "X"))).
Example C59_forwarding_matters :
  parse_case forwards_x (txt "S=?f?;X='a';") (txt "S") true 100 (text_reader (txt "a")) = Some (Ok [bg 1 1 "S"; tk 9 1 "a"; en 1 2 "S"]) /\
  exists e, parse_case forwards_x (txt "S=?f?;") (txt "S") true 100 (text_reader (txt "a")) = Some (Err e).
Proof. split; [vm_compute; reflexivity|]. eexists. vm_compute. reflexivity. Qed.

(** ** C60.  The names *)
Lemma renamed_pf : forall rs1 rs2 cfg f, renamed f rs1 rs2 ->
  (forall r x, In r rs1 -> mentioned rs1 x -> (same_name (f x) (f (r_id r)) <-> same_name x (r_id r))) ->
  no_forwarding cfg -> token_scanners cfg ->
  forall g1 g2 id id' m1 m2 debug fuel1 rd,
  parser_for rs1 cfg g1 id m1 -> parser_for rs2 cfg g2 id' m2 -> reader rd -> ending_of rd = None ->
  (forall r, names rs1 id r -> same_name id' (f (r_id r))) ->
  fst (parser_parse debug g1 fuel1 m1 rd) <> OutOfFuel ->
  exists f0, forall fuel, f0 <= fuel ->
    like_answer eq (fun a b => b = f a) (retold f cfg) none (fst (parser_parse debug g1 fuel1 m1 rd)) (fst (parser_parse debug g2 fuel m2 rd)).
Proof.
  intros rs1 rs2 cfg f H1 H2 H3 H4 g1 g2 id id' m1 m2 debug fuel1 rd Hp1 Hp2 Hr He Hs Hf. eapply parse_renamed; try eassumption.
  apply parser_unique in Hp1. exact Hp1.
Qed.
(** Names replaced throughout, so that names that differed still do: the same events up to
    the labels, the same errors up to the names in what was expected. *)
Theorem C60_renaming : forall rs1 rs2 cfg f, renamed f rs1 rs2 ->
  (forall r x, In r rs1 -> mentioned rs1 x -> (same_name (f x) (f (r_id r)) <-> same_name x (r_id r))) ->
  no_forwarding cfg -> token_scanners cfg ->
  forall g1 g2 id id' m1 m2 debug fuel1 rd,
  parser_for rs1 cfg g1 id m1 -> parser_for rs2 cfg g2 id' m2 -> reader rd -> ending_of rd = None ->
  (forall r, names rs1 id r -> same_name id' (f (r_id r))) ->
  fst (parser_parse debug g1 fuel1 m1 rd) <> OutOfFuel ->
  exists f0, forall fuel, f0 <= fuel ->
    like_answer eq (fun a b => b = f a) (retold f cfg) none (fst (parser_parse debug g1 fuel1 m1 rd)) (fst (parser_parse debug g2 fuel m2 rd)).
Proof. exact renamed_pf. Qed.
Print Assumptions C60_renaming.
(** The scanners of the library qualify. *)
Theorem C60_library : forall cfg : config, (forall l c, library_scanner (cfg l c)) -> no_forwarding cfg /\ token_scanners cfg.
Proof. exact library_tokens. Qed.
Print Assumptions C60_library.
Definition old : str := txt "S=A,['b'|A];A='a';".
Definition new : str := txt "T=B,['b'|B];B='a';".
Definition old_to_new (x : str) : str := if str_eqb x (txt "S") then txt "T" else if str_eqb x (txt "A") then txt "B" else x.
Lemma mentioned_refs : forall rs x, mentioned rs x -> In x (map r_id rs ++ flat_map (fun r => prim_refs (PGrouped (r_loc r) (r_defs r))) rs).
Proof.
  intros rs x (r & Hr & [E|(l & Hl)]); apply in_or_app.
  - left. rewrite <- E. apply in_map. exact Hr.
  - right. apply in_flat_map. exists r. split; [exact Hr|]. eapply inside_refs. exact Hl.
Qed.
Example C60_case : renamed old_to_new (rules_of old) (rules_of new) /\
  (forall r x, In r (rules_of old) -> mentioned (rules_of old) x -> (same_name (old_to_new x) (old_to_new (r_id r)) <-> same_name x (r_id r))) /\
  parse_case default_config old (txt "S") true 200 (text_reader (txt "ab")) = Some (Ok [bg 1 1 "S"; bg 3 1 "A"; tk 15 1 "a"; en 3 2 "A"; tk 6 2 "b"; en 1 3 "S"]) /\
  parse_case default_config new (txt "T") true 200 (text_reader (txt "ab")) = Some (Ok [bg 1 1 "T"; bg 3 1 "B"; tk 15 1 "a"; en 3 2 "B"; tk 6 2 "b"; en 1 3 "T"]).
Proof.
  split; [|split; [|split; vm_compute; reflexivity]].
  - repeat constructor.
  - intros r x Hr Hx. apply mentioned_refs in Hx. rewrite !same_name_keyed. vm_compute in Hr, Hx.
    destruct Hr as [<-|[<-|[]]]; repeat (destruct Hx as [<-|Hx]; [vm_compute; split; congruence|]); destruct Hx.
Qed.
(** The errors too. *)
Example C60_error : exists e e',
  parse_case default_config (txt "S='x'|'y'-A;A='y';") (txt "S") true 200 (text_reader (txt "c")) = Some (Err e) /\
  parse_case default_config (txt "T='x'|'y'-B;B='y';") (txt "T") true 200 (text_reader (txt "c")) = Some (Err e') /\ e <> e'.
Proof. eexists. eexists. split; [vm_compute; reflexivity|]. split; [vm_compute; reflexivity|]. discriminate. Qed.
