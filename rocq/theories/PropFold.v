(** C105: the events of a parse make a tree. *)
From Coq Require Import String List NArith Arith Bool Lia.
From Verif Require Import Base Ident Tokenizer Ast Lex Syntax Io Graph Machine Tree SpecText SpecSyntax SpecTree SpecIo TextFacts TreeFacts SyntaxFacts IoFacts SpecParse SpecMachine SpecEvents Pure ParseFacts CodeFacts EvFacts MachineFacts EventFacts LangFacts PanicFacts PropSyntax PropParse PropEvents SpecFold FoldFacts.
Import ListNotations.
Open Scope nat_scope.

(** Events make trees exactly when they are nested. *)
Theorem C105_nested : forall es, (exists ts, trees es = Some ts) <-> nested es.
Proof. exact trees_nested. Qed.
Print Assumptions C105_nested.

(** The events of a parse make one tree: a node at the place where the parse began, with a
    leaf for each token and a node for each Begin, as a walk from left to right shows. *)
Lemma tree_pf : forall rs cfg g id m debug fuel rd evs, parser_for rs cfg g id m -> reader rd -> nesting_scanners cfg ->
  fst (parser_parse debug g fuel m rd) = Ok evs ->
  exists t, trees evs = Some [t] /\ walk t = map bare evs /\ a_token t = tokens evs /\
    a_is_node t = true /\ a_location t = p_at (stand rd).
Proof.
  intros rs cfg g id m debug fuel rd evs Hp Hr Hn H.
  destruct (C34_events_nested _ _ _ _ _ _ _ _ _ Hp Hr Hn H) as (r & inner & _ & Hi & E).
  destruct (nested_grown _ Hi) as (cs & Hg). exists (AComplex (p_at (stand rd)) None cs).
  assert (K : grown evs [AComplex (p_at (stand rd)) None cs]) by (rewrite E; constructor; [exact Hg|constructor]).
  split; [apply grown_trees; exact K|]. split; [rewrite <- (grown_walk _ _ K); symmetry; apply app_nil_r|].
  split; [rewrite <- (grown_tokens _ _ K); symmetry; apply app_nil_r|]. split; reflexivity.
Qed.
Theorem C105_tree : forall rs cfg g id m debug fuel rd evs, parser_for rs cfg g id m -> reader rd -> nesting_scanners cfg ->
  fst (parser_parse debug g fuel m rd) = Ok evs ->
  exists t, trees evs = Some [t] /\ walk t = map bare evs /\ a_token t = tokens evs /\
    a_is_node t = true /\ a_location t = p_at (stand rd).
Proof. exact tree_pf. Qed.
Print Assumptions C105_tree.

(** Where options and repetitions leave no events behind (C35), [AST::token] gives the text
    back, and for each part of the tree the piece of the text at its location. *)
Lemma text_pf : forall rs cfg g id m debug fuel rd evs t, parser_for rs cfg g id m -> reader rd -> nesting_scanners cfg ->
  spelling_scanners cfg -> no_forwarding cfg -> Forall (fun r => tidy (NDefs (r_defs r))) rs ->
  fst (parser_parse debug g fuel m rd) = Ok evs -> trees evs = Some [t] ->
  a_token t = unread rd /\ forall u, part_of u t -> located (stand rd) u.
Proof.
  intros rs cfg g id m debug fuel rd evs t Hp Hr Hn Hs Hf Ht H Et.
  destruct (C35_tokens_spell _ _ _ _ _ _ _ _ _ Hp Hr Hs Hf Ht H) as (Hw & Hl).
  assert (Hne : nested evs) by (apply trees_nested; exists [t]; exact Et).
  pose proof (trees_grown _ _ Hne Et) as Hg. split.
  - rewrite <- Hw, <- (grown_tokens _ _ Hg). symmetry. apply app_nil_r.
  - intros u Hu. eapply grown_located; [exact Hg|exact Hl|left; reflexivity|exact Hu].
Qed.
Theorem C105_text : forall rs cfg g id m debug fuel rd evs t, parser_for rs cfg g id m -> reader rd -> nesting_scanners cfg ->
  spelling_scanners cfg -> no_forwarding cfg -> Forall (fun r => tidy (NDefs (r_defs r))) rs ->
  fst (parser_parse debug g fuel m rd) = Ok evs -> trees evs = Some [t] ->
  a_token t = unread rd /\ forall u, part_of u t -> located (stand rd) u.
Proof. exact text_pf. Qed.
Print Assumptions C105_text.

(** The tree of the parse of [small_parse] (PropEvents.v, where the hypotheses are shown). *)
Definition at_col (n : N) : location := Loc [] 1 n.
Definition small_tree : ast :=
  AComplex (at_col 1) None
    [AAtom (at_col 1) None (txt "x"); AComplex (at_col 2) None [AAtom (at_col 2) None (txt "d")]; AAtom (at_col 3) None (txt "x");
     AComplex (at_col 4) None [AAtom (at_col 4) None (txt "d")]; AAtom (at_col 5) None (txt ",");
     AComplex (at_col 6) None [AAtom (at_col 6) None (txt "ee")]; AAtom (at_col 8) None (txt "ab")].
Example C105_case : option_map (fun r => match r with Ok evs => trees evs | _ => None end)
    (parse_case any_config small_text (txt "S") true 100 (text_reader (txt "xdxd,eeab"))) = Some (Some [small_tree]) /\
  a_token small_tree = txt "xdxd,eeab" /\ part_of (AComplex (at_col 6) None [AAtom (at_col 6) None (txt "ee")]) small_tree.
Proof.
  split; [vm_compute; reflexivity|]. split; [vm_compute; reflexivity|].
  eapply pt_child; [|apply pt_self]. do 5 right. left. reflexivity.
Qed.
(** Events that make no tree: an End too much, a Begin too much, crossed pairs. *)
Example C105_none : trees [bg 1 1 "A"; en 1 1 "A"; en 1 1 "A"] = None /\ trees [bg 1 1 "A"; tk 1 1 "a"] = None /\
  trees [bg 1 1 "A"; bg 1 1 "B"; en 1 1 "A"; en 1 1 "B"] = None.
Proof. repeat split. Qed.
(** The parse of C35 whose tokens do not spell the text. *)
Example C105_lost : option_map (fun r => match r with Ok evs => option_map (map a_token) (trees evs) | _ => None end)
    (parse_case default_config (txt "A=['a','b'],'a','c';") (txt "A") true 100 (text_reader (txt "ac"))) = Some (Some [txt "aac"]).
Proof. vm_compute. reflexivity. Qed.
