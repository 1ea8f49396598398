(** C92: the rules of a text with all their locations. *)
From Coq Require Import String List NArith Arith Bool Lia.
From Verif Require Import Base Ident Tokenizer Ast Lex SpecText TextFacts SpecTok SpecLex TokFacts TokRun LexRun SpecGram SpecSyntax SpecLoc PlaceFacts GramFacts GramText SpecSpot SpotFacts PropLex.
Import ListNotations.
Open Scope nat_scope.

(** The rules of a text are those of its derivation, every part at its place. *)
Theorem C92_located : forall name s rs, parse_str name s = Ok rs <-> exists ts, lexes (loc_new name) s ts /\ spot_syntax ts rs.
Proof. exact spot_iff. Qed.
Print Assumptions C92_located.
(** Each derivation has just one such list of rules. *)
Lemma places_pf : forall name s ts rs, lexes (loc_new name) s ts -> g_syntax ts rs -> exists! rs', spot_syntax ts rs'.
Proof.
  intros name s ts rs Hl Hg. destruct (gram_spot_syntax _ _ Hg) as (rs' & H). exists rs'. split; [exact H|].
  intros rs2 H2. exact (spot_unique _ _ _ (lexes_vt _ _ _ Hl) H H2).
Qed.
Theorem C92_places : forall name s ts rs, lexes (loc_new name) s ts -> g_syntax ts rs -> exists! rs', spot_syntax ts rs'.
Proof. exact places_pf. Qed.
Print Assumptions C92_places.

(** A part has no place in the text exactly if the text has brackets with nothing, not even a
    gap, in between. *)
Lemma unknown_pf : forall name s rs ts, name <> txt "<unknown>" -> parse_str name s = Ok rs -> lexes (loc_new name) s ts ->
  (exists r p, In r rs /\ part_of p r /\ ~ exists u v, s = u ++ v /\ reaches (loc_new name) u (p_loc p)) <-> hollow ts.
Proof.
  intros name s rs ts Hn H Hl. destruct (proj1 (spot_iff name s rs) H) as (ts' & Hl' & Hs).
  rewrite (lexes_unique _ _ _ _ Hl' Hl) in Hs. rewrite <- (lost_syntax _ _ Hs).
  - split.
    + intros (r & p & Hr & Hp & K). exists r, p. split; [exact Hr|]. split; [exact Hp|]. destruct (parse_places _ _ _ _ _ H Hr Hp) as [Q|(_ & Q)]; [contradiction|exact Q].
    + intros (r & p & Hr & Hp & K). exists r, p. split; [exact Hr|]. split; [exact Hp|]. intros (u & v & _ & Q & _). rewrite K in Q. apply Hn. symmetry. exact Q.
  - apply Forall_forall. intros t Ht E. apply in_split in Ht as (a & b & Et). destruct (lexes_locations _ _ _ Hl _ _ _ Et) as (Q & _).
    rewrite E in Q. apply Hn. symmetry. exact Q.
Qed.
Theorem C92_unknown : forall name s rs ts, name <> txt "<unknown>" -> parse_str name s = Ok rs -> lexes (loc_new name) s ts ->
  (exists r p, In r rs /\ part_of p r /\ ~ exists u v, s = u ++ v /\ reaches (loc_new name) u (p_loc p)) <-> hollow ts.
Proof. exact unknown_pf. Qed.
Print Assumptions C92_unknown.

(** Empty sequences before a bar, before a closing bracket (at the gap or the bar before it) and
    before the terminator; with the gap, the brackets of the second text are not hollow. *)
Example C92_case :
  parse_str [] (txt "a=|[b|],[ ]-;") = Ok [Rule (Loc [] 1 1) (txt "a")
    [[Term (Factor 1 (PEmpty (Loc [] 1 3))) None];
     [Term (Factor 1 (POptional (Loc [] 1 4) [[Term (Factor 1 (PMeta (Loc [] 1 5) (txt "b"))) None]; [Term (Factor 1 (PEmpty (Loc [] 1 6))) None]])) None;
      Term (Factor 1 (POptional (Loc [] 1 9) [[Term (Factor 1 (PEmpty (Loc [] 1 10))) None]])) (Some (Factor 1 (PEmpty (Loc [] 1 13))))]]] /\
  (exists r p, parse_str [] (txt "a=[];") = Ok [r] /\ part_of p r /\ p_loc p = loc_new (txt "<unknown>")) /\
  (exists ts, lexes (loc_new []) (txt "a=[];") ts /\ hollow ts) /\
  (exists ts, lexes (loc_new []) (txt "a=[ ];") ts /\ ~ hollow ts).
Proof.
  split; [vm_compute; reflexivity|]. split; [|split].
  - eexists _, (PEmpty (loc_new (txt "<unknown>"))). split; [vm_compute; reflexivity|]. split; [|reflexivity]. eexists _, _. split; [left; reflexivity|]. split; [left; reflexivity|]. left.
    eapply inside_deeper; [left; reflexivity|left; reflexivity|left; reflexivity|]. left. apply inside_here.
  - assert (K : exists rs, parse_str [] (txt "a=[];") = Ok rs) by (eexists; vm_compute; reflexivity). destruct K as (rs & K).
    destruct (proj1 (spot_iff _ _ _) K) as (ts & Hl & Hs). exists ts. split; [exact Hl|]. apply (unknown_pf [] (txt "a=[];") rs ts); [discriminate|exact K|exact Hl|].
    vm_compute in K. injection K as <-. eexists _, (PEmpty (loc_new (txt "<unknown>"))). split; [left; reflexivity|]. split.
    + eexists _, _. split; [left; reflexivity|]. split; [left; reflexivity|]. left. eapply inside_deeper; [left; reflexivity|left; reflexivity|left; reflexivity|]. left. apply inside_here.
    + intros (u & v & _ & Q & _). vm_compute in Q. discriminate.
  - assert (E : tokens_of [] [txt "a=[ ];"] = Ok [TMeta (Loc [] 1 1) (txt "a"); TDefining (Loc [] 1 2); TStartOption (Loc [] 1 3) (txt "["); TGap (Loc [] 1 4) (txt " ");
      TEndOption (Loc [] 1 5) (txt "]"); TTerminator (Loc [] 1 6) 59%N; TEOF (Loc [] 1 7)]) by (vm_compute; reflexivity).
    apply tokens_lexes in E. eexists. split; [exact E|]. rewrite !hollow_cons. pose proof hollow_nil as N. 
    intros H. repeat destruct H as [(A & t' & r' & E' & B)|H]; try (destruct A; fail); [|exact (N H)]. injection E' as <- _. destruct B.
Qed.
