(** When the debug assertions of the parser fail. *)
From Coq Require Import String List NArith Arith Bool Lia.
From Verif Require Import Base Ident Tokenizer Ast Lex Syntax Io Graph Machine SpecText SpecSyntax SpecTree SpecIo TextFacts TreeFacts SyntaxFacts IoFacts SpecParse SpecMachine SpecEvents Pure PureFacts ParseFacts CodeFacts RunFacts EvFacts MachineFacts EventFacts PanicFacts BuildIo.
Import ListNotations.
Open Scope nat_scope.

Definition quiet {A} (m : P A) : Prop := forall s, fst (m s) <> Panic PDebugAssert.
Lemma quiet_calm : forall A (m : P A), calm m -> quiet m.
Proof. intros A m H s. apply H. Qed.
Lemma quiet_bind : forall A B (m : P A) (k : A -> P B), quiet m -> (forall a, quiet (k a)) -> quiet (pbind m k).
Proof.
  intros A B m k Hm Hk s. specialize (Hm s). unfold pbind. destruct (m s) as ([a|e|q|] & s'); try discriminate; [apply Hk|]. cbn [fst] in *. congruence.
Qed.
Lemma quiet_ret : forall A (a : A), quiet (pret a).
Proof. intros. apply quiet_calm, calm_ret. Qed.
Lemma quiet_fail : forall A e, quiet (@pfail A e).
Proof. intros. apply quiet_calm, calm_fail. Qed.
Lemma quiet_fuel : forall A, quiet (@pno_fuel A).
Proof. intros. apply quiet_calm, calm_fuel. Qed.
Lemma quiet_unwrap : forall A, quiet (@pcrash A PUnwrap).
Proof. intros A s. discriminate. Qed.
Lemma quiet_get : quiet pget. Proof. apply quiet_calm, calm_get. Qed.
Lemma quiet_put : forall s, quiet (pput s). Proof. intros. apply quiet_calm, calm_put. Qed.
Lemma quiet_loc : quiet ploc. Proof. apply quiet_calm, calm_loc. Qed.
Lemma quiet_skip : forall n, quiet (pskip n). Proof. intros. apply quiet_calm, calm_skip. Qed.
Lemma quiet_eof : forall E, quiet (peof E). Proof. intros. apply quiet_calm, calm_eof. Qed.
Lemma quiet_prefix : forall E w, quiet (pprefix E w). Proof. intros. apply quiet_calm, calm_prefix. Qed.
Lemma quiet_expected : forall E g c, quiet (perr_expected E g c). Proof. intros. apply quiet_calm, calm_expected. Qed.
Lemma quiet_scan : forall E f sc def, quiet (pspecial_scan E f sc def). Proof. intros. apply quiet_calm, calm_scan. Qed.
Ltac q := first [apply quiet_ret|apply quiet_fail|apply quiet_fuel|apply quiet_unwrap|apply quiet_get|apply quiet_put|apply quiet_loc|apply quiet_skip|apply quiet_eof
  |apply quiet_prefix|apply quiet_expected|apply quiet_scan|apply quiet_bind; [|intros ?]].
Lemma quiet_rep : forall sub, (forall e, quiet (sub e)) -> forall f mn mx i t, quiet (prep_loop sub f mn mx i t).
Proof.
  intros sub Hs. induction f as [|f IH]; intros mn mx i t; cbn [prep_loop]; [q|]. destruct (N.ltb i mx); [|q]. q; [q|]. q; [apply Hs|]. destruct a0 as ([|e] & tmp).
  - q; [q|]. destruct (_ && _)%bool; [q|apply IH].
  - destruct (N.ltb i mn); [q|]. q; q.
Qed.
Lemma quiet_or : forall sub, (forall a, quiet (sub a)) -> forall subs, quiet (por_loop sub subs).
Proof.
  intros sub H. induction subs as [|a subs IH]; cbn [por_loop]; [q|]. q; [q|]. q; [apply H|]. destruct a1 as ([|e] & tmp); [q|]. q; [q|]. q; [exact IH|q].
Qed.
Lemma quiet_run : forall g f E next evs, quiet (prun g f E next evs).
Proof.
  intros g. induction f as [|f IH]; intros E next evs; cbn [prun]; [q|]. destruct next as [addr|]; [|q]. destruct (nth_error (g_instrs g) addr) as [ins|]; [|q]. cbv zeta.
  assert (C : forall pe : prospect * list event, quiet (let '(p, es) := pe in match p with Proceed => prun g f E (i_next ins) es | NotThisWay e => pret (NotThisWay e, es) end)).
  { intros ([|e] & es); [apply IH|q]. }
  destruct (i_step ins) as [mn mx s|subs|w|sc| |fa ex|id].
  - q; [apply quiet_rep; intros; apply IH|]. destruct a; [q|apply IH].
  - q; [apply quiet_or; intros; apply IH|]. destruct a as [es|temp]; [|apply IH]. destruct (pick_error (rev es)) as [err|]; [|q]. q; [q|].
    destruct (loc_eqb (e_loc err) a); [|q]. q; q.
  - apply quiet_bind; [|exact C]. unfold pterminal_step. q; [q|]. destruct a; [q; [q|]; q; q|]. q; q.
  - apply quiet_bind; [|exact C]. unfold pspecial_step. q; [q|]. q; [q|]. destruct a0 as [ev0| |id]; [q|q; [q|]; q; q|].
    destruct (g_label g id) as [a1|]; [|intros s; discriminate]. apply quiet_bind; [apply IH|]. intros (p & es). q.
  - exact (C (Proceed, evs)).
  - apply quiet_bind; [|exact C]. unfold pexcept_scan. q; [q|]. q; [apply IH|]. destruct a0 as ([|e] & tmp); [|q; q]. q; [q|]. cbv zeta. destruct (Nat.ltb _ _); [|intros s; discriminate].
    match goal with |- quiet (match fst ?x with _ => _ end) => assert (K : fst x <> Panic PDebugAssert); [|destruct (fst x) as [[|]|e|p|]] end.
    + apply quiet_bind; [apply IH|]. intros ([|e] & t2); q.
    + q; [q|]. q; q.
    + q.
    + q.
    + intros s Hs. cbn in Hs. congruence.
    + q.
  - destruct (g_label g id) as [address|]; [|q]. destruct (g_canonical g id) as [name|]; [|q]. q; [q|]. q; [apply IH|]. destruct a0 as ([|e] & temp); [|q]. q; [q|apply IH].
Qed.
(** In a debug build a parse stops at an assertion only if a release build accepts. *)
Lemma pure_stopped : forall g f E a s, fst (pmachine_parse g true f E a s) = Panic PDebugAssert -> E = None /\
  exists evs, fst (pmachine_parse g false f E a s) = Ok evs.
Proof.
  intros g f E a s H. unfold pmachine_parse, pbind in *. pose proof (quiet_run g f E (Some a) [] s) as Hq.
  destruct (prun g f E (Some a) [] s) as ([([|e] & es)|e|p|] & s1); cbn [fst] in *; try discriminate; [|congruence].
  pose proof (quiet_eof E s1) as He. destruct (peof E s1) as ([b|e|p|] & s2) eqn:Ee; cbn [fst] in *; try discriminate; [|congruence]. destruct b.
  - split.
    + destruct E as [e|]; [|reflexivity]. exfalso. unfold peof, pread in Ee. destruct (p_rest s1); discriminate.
    + cbn. eauto.
  - exfalso. pose proof (quiet_expected E g None s2) as Hx. destruct (perr_expected E g None s2) as ([e|e|p|] & s3); cbn [fst pfail] in *; try discriminate. congruence.
Qed.
Lemma parse_stopped : forall g f m rd, reader rd -> fst (parser_parse true g f m rd) = Panic PDebugAssert -> exists evs, fst (parser_parse false g f m rd) = Ok evs.
Proof.
  intros g f m rd Hr H. destruct (parse_reader true g f m rd Hr) as (A & _). destruct (parse_reader false g f m rd Hr) as (B & _). rewrite A in H. rewrite B.
  exact (proj2 (pure_stopped _ _ _ _ _ H)).
Qed.
Lemma parse_builds : forall rs cfg g id m f rd, parser_for rs cfg g id m -> reader rd -> nesting_scanners cfg -> parser_parse true g f m rd = parser_parse false g f m rd.
Proof.
  intros rs cfg g id m f rd Hp Hr Hn. destruct (parse_below g f m rd) as [E|H]; [symmetry; exact E|exfalso].
  destruct (parser_rule _ _ _ _ _ Hp) as (r & Hnm & Hm). pose proof (parser_faithful _ _ _ _ _ Hp) as Hg.
  destruct (parse_reader true g f m rd Hr) as (A & _). rewrite A in H. destruct (pure_stopped _ _ _ _ _ H) as (Ee & evs & B). rewrite Ee in *.
  pose proof (pparse_sound rs cfg g Hg true f m r (stand rd) Hm) as K1. rewrite H in K1. pose proof (pparse_sound rs cfg g Hg false f m r (stand rd) Hm) as K2. rewrite B in K2.
  destruct K2 as (s2 & raw2 & V2 & _). destruct K1 as [V1|(_ & _ & s' & raw & V1 & K & _)].
  - pose proof (ev_fun rs cfg (parser_unique _ _ _ _ _ Hp) (proj1 (proj2 Hp)) _ _ _ V1 _ V2). discriminate.
  - inversion V1; subst. match goal with X : SpecParse.ev _ _ (NDefs _) _ (Match _ _) |- _ => pose proof (ev_nested rs cfg Hn _ _ _ X) as HN end. cbn [List.tl app] in K. rewrite (labels_app _ HN) in K. discriminate.
Qed.
