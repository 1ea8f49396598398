(** Property C37: parsing returns.

    [fuel] bounds the steps of the model.  A parse returns if with enough fuel it does not
    run out of it; one that runs out of it whatever the fuel never returns (the code
    overflows its stack).  [left_recursive] is in SpecTotal.v. *)
From Coq Require Import String List NArith Arith Bool Lia Relations.
From Verif Require Import Base Ident Tokenizer Ast Lex Syntax Io Graph Machine SpecText SpecSyntax SpecIo TextFacts SyntaxFacts IoFacts SpecParse SpecMachine SpecEvents SpecTotal Pure ParseFacts CodeFacts EvFacts MachineFacts TotalFacts PropSyntax PropParse PropEvents.
Import ListNotations.
Open Scope nat_scope.

(** A rule whose first definition begins with the rule itself never returns. *)
Section Loop.
Variable rs : list rule.
Variable cfg : config.
Variable r : rule.
Variables (l : location) (id : str) (ts : list term) (ds : definition_list).
Hypothesis Hu : no_repeat rs.
Hypothesis Hn : names rs id r.
Hypothesis Hd : r_defs r = (Term (Factor 1 (PMeta l id)) None :: ts) :: ds.
Definition looping (n : node) : Prop :=
  (exists l' id', n = NRef l' id' /\ names rs id' r) \/ n = NDefs (r_defs r) \/ n = NAlts (r_defs r) \/
  n = NSeq (Term (Factor 1 (PMeta l id)) None :: ts) \/ n = NTerm (Term (Factor 1 (PMeta l id)) None) \/
  n = NFactor (Factor 1 (PMeta l id)) \/ n = NPrim (PMeta l id).
Lemma loop_prim : looping (NPrim (PMeta l id)). Proof. unfold looping. auto 10. Qed.
Lemma loop_factor : looping (NFactor (Factor 1 (PMeta l id))). Proof. unfold looping. auto 10. Qed.
Lemma loop_term : looping (NTerm (Term (Factor 1 (PMeta l id)) None)). Proof. unfold looping. auto 10. Qed.
Lemma loop_seq : looping (NSeq (Term (Factor 1 (PMeta l id)) None :: ts)). Proof. unfold looping. auto 10. Qed.
Lemma loop_alts : looping (NAlts (r_defs r)). Proof. unfold looping. auto 10. Qed.
Lemma loop_defs : looping (NDefs (r_defs r)). Proof. unfold looping. auto 10. Qed.
Lemma loop_ref : looping (NRef l id). Proof. left. eauto. Qed.
Lemma loop_none : forall n s o, ev rs cfg n s o -> looping n -> False.
Proof.
  intros n s o H. induction H; intros [(l' & id' & E & Hn')|[E|[E|[E|[E|[E|E]]]]]]; try discriminate E;
    try (injection E as -> ->); try (injection E as -> -> ->); try rewrite Hd in E; try (injection E; intros; subst); subst; auto using loop_prim, loop_factor, loop_term, loop_seq, loop_ref.
  all: try (match goal with X : names rs ?i ?a, Y : names rs ?i r |- _ => pose proof (names_unique _ _ _ _ Hu X Y); subst a end; auto using loop_defs; fail).
  all: try (match goal with X : ~ defined _ _ |- _ => apply X; exists r; assumption end).
  all: try (match goal with X : bare_group _ = Some _ |- _ => discriminate X end).
  all: try (match goal with X : 1%N <> 1%N |- _ => contradiction end).
  all: try (match goal with X : (looping (NAlts _)) -> False |- _ => apply X; rewrite <- Hd; apply loop_alts end).
  all: try discriminate.
  all: pose proof loop_alts as L; rewrite Hd in L; exact (IHev L).
Qed.
End Loop.
Lemma direct_pf : forall rs cfg g id m debug fuel rd r l id' ts ds, parser_for rs cfg g id m -> reader rd -> ending_of rd = None ->
  names rs id r -> names rs id' r -> r_defs r = (Term (Factor 1 (PMeta l id')) None :: ts) :: ds ->
  fst (parser_parse debug g fuel m rd) = OutOfFuel.
Proof.
  intros rs cfg g id m debug fuel rd r l id' ts ds Hp Hr He Hn Hn' Hd. eapply parse_diverges; [exact Hp|exact Hr|exact He|].
  intros o (r2 & Hn2 & Ho). pose proof (parser_unique _ _ _ _ _ Hp) as Hu. pose proof (names_unique _ _ _ _ Hu Hn Hn2); subst r2.
  eapply loop_none; [exact Hu|exact Hn'|exact Hd|exact Ho|]. left. exists (r_loc r), (r_id r). split; [reflexivity|].
  split; [exact (proj1 Hn)|]. apply same_name_keyed. reflexivity.
Qed.
Theorem C37_direct_left_recursion : forall rs cfg g id m debug fuel rd r l id' ts ds,
  parser_for rs cfg g id m -> reader rd -> ending_of rd = None ->
  names rs id r -> names rs id' r -> r_defs r = (Term (Factor 1 (PMeta l id')) None :: ts) :: ds ->
  fst (parser_parse debug g fuel m rd) = OutOfFuel.
Proof. exact direct_pf. Qed.
Print Assumptions C37_direct_left_recursion.
Theorem C37_parse_returns_refuted : exists ebnf id input,
  (exists g m, parser_for (rules_of ebnf) default_config g id m) /\
  forall g m debug fuel, parser_for (rules_of ebnf) default_config g id m ->
    fst (parser_parse debug g fuel m (text_reader input)) = OutOfFuel.
Proof.
  exists (txt "S=S,'a'|'b';"), (txt "S"), (txt "b"). destruct (text_reader_ok (txt "b")) as (H1 & H2 & _). split.
  - destruct (prepare default_config (txt "S=S,'a'|'b';") (txt "S")) as [(g & m)|] eqn:E; [|vm_compute in E; discriminate].
    exists g, m. apply prepare_ok. exact E.
  - intros g m debug fuel Hp. destruct (parser_rule _ _ _ _ _ Hp) as (r & Hn & _). pose proof (proj1 Hn) as Hin. vm_compute in Hin.
    destruct Hin as [<-|[]]. eapply (direct_pf _ _ _ _ _ _ _ _ _ (Loc [] 1 3) (txt "S")); [exact Hp|exact H1|exact H2|exact Hn|exact Hn|reflexivity].
Qed.
Print Assumptions C37_parse_returns_refuted.

(** What holds: if no rule is left-recursive, every parse of a complete text returns. *)
Theorem C37_parse_returns : forall rs cfg g id m debug rd, parser_for rs cfg g id m ->
  reader rd -> ending_of rd = None -> (forall r, In r rs -> ~ left_recursive rs cfg r) ->
  exists f0, forall fuel, f0 <= fuel -> fst (parser_parse debug g fuel m rd) <> OutOfFuel.
Proof. exact parse_ends. Qed.
Print Assumptions C37_parse_returns.
(** A recursive grammar without left recursion: each rule only starts ones of lower rank. *)
Lemma ranked : forall rs cfg (rank : rule -> nat), (forall r r', tries rs cfg r r' -> rank r' < rank r) ->
  forall r, In r rs -> ~ left_recursive rs cfg r.
Proof.
  intros rs cfg rank H r _ K. unfold left_recursive in K.
  assert (G : forall a b, clos_trans rule (tries rs cfg) a b -> rank b < rank a).
  { intros a b C. induction C as [a b C|a b c C1 I1 C2 I2]; [apply H; exact C|lia]. }
  pose proof (G _ _ K). lia.
Qed.
Definition sums : str := txt "E=T,{'+',T};T='x'|F;F='(',E,')'|? n ?-'xx';".
Definition sums_rank (r : rule) : nat :=
  if str_eqb (r_id r) (txt "E") then 3 else if str_eqb (r_id r) (txt "T") then 2 else 1.
Lemma no_forward : forall l c s id s', ~ scanned (any_config l c) l s (SForward id s').
Proof. exact (proj2 (proj2 (proj2 (library_scanners any_config (proj1 library_case))))). Qed.
Example C37_case : forall r, In r (rules_of sums) -> ~ left_recursive (rules_of sums) any_config r.
Proof.
  apply (ranked _ _ sums_rank). intros r r' (Hr & Hs).
  assert (Hn : forall id, names (rules_of sums) id r' -> keyed id = keyed (r_id r')) by (intros id (_ & K); apply same_name_keyed; exact K).
  vm_compute in Hr. destruct Hr as [<-|[<-|[<-|[]]]].
  all: repeat match goal with
    | X : starts _ _ (NDefs _) _ |- _ => inversion X; clear X; subst
    | X : In _ [_] |- _ => destruct X as [<-|[]]
    | X : In _ (_ :: _) |- _ => destruct X as [<-|X]
    | X : starts _ _ (NSeq _) _ |- _ => inversion X; clear X; subst
    | X : starts _ _ (NTerm _) _ |- _ => inversion X; clear X; subst
    | X : starts _ _ (NFactor _) _ |- _ => inversion X; clear X; subst
    | X : starts _ _ (NPrim _) _ |- _ => inversion X; clear X; subst
    | X : scanned _ _ _ (SForward _ _) |- _ => exfalso; exact (no_forward _ _ _ _ _ X)
    end.
  all: repeat match goal with
    | X : skips _ _ (NTerm _) |- _ => inversion X; clear X; subst
    | X : skips _ _ (NFactor _) |- _ => inversion X; clear X; subst
    | X : skips _ _ (NPrim (PTerminal _ _)) |- _ => inversion X; fail
    end.
  all: match goal with X : names _ _ _ |- _ => pose proof (Hn _ X) as K; destruct X as (X & _); vm_compute in X end;
    match goal with X : _ \/ _ |- _ => destruct X as [<-|[<-|[<-|[]]]] end; vm_compute in K; try discriminate K; vm_compute; lia.
Qed.
Example C37_sums : parse_case any_config sums (txt "E") true 100 (text_reader (txt "x+(n)")) =
  Some (Ok [bg 1 1 "E"; bg 3 1 "T"; tk 15 1 "x"; en 3 2 "T"; tk 6 2 "+"; bg 10 3 "T"; bg 19 3 "F"; tk 23 3 "(";
            bg 27 4 "E"; bg 3 4 "T"; bg 19 4 "F"; tk 33 4 "n"; en 19 5 "F"; en 3 5 "T"; en 27 5 "E"; tk 29 5 ")";
            en 19 6 "F"; en 10 6 "T"; en 1 6 "E"]).
Proof. vm_compute. reflexivity. Qed.
