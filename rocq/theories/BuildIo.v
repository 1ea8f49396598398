(** Debug builds and release builds of the reader and of the parser. *)
From Coq Require Import String List NArith Arith Bool Lia.
From Verif Require Import Base Ident Tokenizer Ast Lex Syntax Io Graph Machine SpecIo IoFacts.
Import ListNotations.
Open Scope nat_scope.

Definition below {A} (d r : M A) : Prop := forall s, r s = d s \/ fst (d s) = Panic PDebugAssert.
Lemma below_refl : forall A (m : M A), below m m.
Proof. intros A m s. left. reflexivity. Qed.
Lemma below_bind : forall A B (d r : M A) (k k' : A -> M B), below d r -> (forall a, below (k a) (k' a)) -> below (mbind d k) (mbind r k').
Proof.
  intros A B d r k k' H K s. unfold mbind. destruct (H s) as [->|E].
  - destruct (d s) as ([a|e|p|] & s'); try (left; reflexivity). apply K.
  - destruct (d s) as ([a|e|p|] & s'); cbn [fst] in E; try discriminate. injection E as ->. right. reflexivity.
Qed.
Ltac b := first [apply below_refl|apply below_bind; [|intros ?]].

Lemma append_below : forall out u, ub_append false out u = ub_append true out u \/ ub_append true out u = Panic PDebugAssert.
Proof.
  intros out u. unfold ub_append. cbn [andb]. destruct (ub_stack u).
  - destruct (negb _); [right|left]; reflexivity.
  - destruct (ub_remains u); [right|left]; reflexivity.
Qed.
Lemma read_chars_below : forall n, below (m_read_chars true n) (m_read_chars false n).
Proof.
  intros n s. unfold m_read_chars. destruct (ub_remains (mr_ub s)); [left; reflexivity|].
  destruct (src_read n (mr_src s)) as ([[|c out]|e|p|] & s'); try (left; reflexivity).
  destruct (append_below (c :: out) (mr_ub s)) as [->| ->]; [left|right]; reflexivity.
Qed.
Lemma mark_below : below (m_mark true) (m_mark false).
Proof.
  intros s. unfold m_mark, with_ub, ub_mark. cbn [andb]. match goal with |- context [if negb ?x then _ else _] => destruct x end; [left|right]; reflexivity.
Qed.
Lemma read_below : below (m_read true) (m_read false).
Proof. unfold m_read. b; [apply read_chars_below|b]. Qed.
Lemma is_eof_below : below (m_is_eof true) (m_is_eof false).
Proof. unfold m_is_eof. b; [apply mark_below|]. b; [apply read_below|b]. Qed.
Lemma prefix_loop_below : forall p, below (m_prefix_loop true p) (m_prefix_loop false p).
Proof. induction p as [|x p IH]; [b|]. cbn [m_prefix_loop]. b; [apply read_below|]. destruct a as [c|]; [|b]. destruct (N.eqb c x); [exact IH|b]. Qed.
Lemma prefix_below : forall p, below (m_prefix_matches true p) (m_prefix_matches false p).
Proof. intros p. unfold m_prefix_matches. b; [apply mark_below|]. b; [apply prefix_loop_below|b]. Qed.
Lemma peek_loop_below : forall n, below (m_peek_loop true n) (m_peek_loop false n).
Proof. induction n as [|n IH]; [b|]. cbn [m_peek_loop]. b; [apply read_below|]. destruct a as [c|]; [|b]. b; [exact IH|b]. Qed.
Lemma peek_below : forall n, below (m_peek true n) (m_peek false n).
Proof. intros n. unfold m_peek. b; [apply mark_below|]. b; [apply peek_loop_below|b]. Qed.
Lemma skip_loop_below : forall f n, below (m_skip_loop true f n) (m_skip_loop false f n).
Proof. induction f as [|f IH]; intros n; [b|]. cbn [m_skip_loop]. destruct n as [|n]; [b|]. b; [apply read_chars_below|]. destruct a; [b|apply IH]. Qed.
Lemma skip_below : forall n, below (m_skip true n) (m_skip false n).
Proof. intros n. unfold m_skip. b; [apply skip_loop_below|b]. Qed.
Lemma read_all_below : forall f, below (m_read_all true f) (m_read_all false f).
Proof. induction f as [|f IH]; [b|]. cbn [m_read_all]. b; [apply read_chars_below|]. destruct a; [b|]. b; [exact IH|b]. Qed.

Lemma lift_below : forall A (f : A -> answer) (d r : M A) s, below d r -> lift f (r s) = lift f (d s) \/ fst (lift f (d s)) = Panic PDebugAssert.
Proof.
  intros A f d r s H. destruct (H s) as [->|E]; [left; reflexivity|right]. destruct (d s) as (x & s'). cbn [fst] in E. subst x. reflexivity.
Qed.
Lemma perform1_below : forall o s, perform1 false o s = perform1 true o s \/ fst (perform1 true o s) = Panic PDebugAssert.
Proof.
  intros o s. destruct o; cbn [perform1]; try (left; reflexivity); apply lift_below.
  - apply read_chars_below.
  - apply mark_below.
  - apply is_eof_below.
  - apply prefix_below.
  - apply peek_below.
  - apply skip_below.
  - apply read_all_below.
Qed.
Lemma perform_below : forall os s, perform false os s = perform true os s \/
  exists done o rest answers s1 s2, os = done ++ o :: rest /\
    perform true done s = (answers, None, s1) /\ perform false done s = (answers, None, s1) /\
    perform1 true o s1 = (Panic PDebugAssert, s2).
Proof.
  induction os as [|o os IH]; intros s; [left; reflexivity|]. destruct (perform1_below o s) as [E|E].
  - cbn [perform]. rewrite E. destruct (perform1 true o s) as ([a|e|p|] & s1) eqn:E1; try (left; reflexivity).
    destruct (IH s1) as [->|(done & o' & rest & answers & s2 & s3 & -> & P1 & P2 & P3)]; [left; reflexivity|right].
    exists (o :: done), o', rest, (a :: answers), s2, s3. split; [reflexivity|]. cbn [perform]. rewrite E, E1, P1, P2. auto.
  - right. destruct (perform1 true o s) as (x & s2) eqn:E1. cbn [fst] in E. subst x. exists [], o, os, [], s, s2. auto.
Qed.

(** ** The parser *)
Section Run.
Variable g : graph.
Ltac bb := first [apply below_refl|apply mark_below|apply read_below|apply is_eof_below|apply prefix_below|apply peek_below|apply skip_below|apply read_chars_below
  |apply below_bind; [|intros ?]].
Lemma stream_below : below (stream_prefix true) (stream_prefix false).
Proof. unfold stream_prefix. bb; [bb|]. destruct a; [bb|]. bb; bb. Qed.
Lemma err_below : forall cur, below (err_expected true g cur) (err_expected false g cur).
Proof.
  intros cur. unfold err_expected. bb; [bb|]. intros s. destruct (stream_below s) as [->|E]; [left; reflexivity|right].
  destruct (stream_prefix true s) as (x & s'). cbn [fst] in E. subst x. reflexivity.
Qed.
Lemma sprog_below : forall p own, below (run_sprog true p own) (run_sprog false p own).
Proof.
  induction p; intros own; cbn [run_sprog]; try (bb; [bb|auto]); try bb; auto.
  - destruct (skipn i own); [auto|]. bb; [bb|auto].
  - destruct (skipn i own); [auto|]. bb; [bb|auto].
Qed.
Lemma chars_loop_below : forall f pred max n, below (chars_loop true f pred max n) (chars_loop false f pred max n).
Proof.
  induction f as [|f IH]; intros pred max n; [bb|]. cbn [chars_loop].
  destruct (match max with Some m => (n <? m)%N | None => true end); [|bb]. bb; [bb|]. bb; [bb|]. destruct a0 as [c|]; [|bb].
  destruct (negb (pred c)); [bb; bb|]. bb; [bb|]. bb; [apply IH|bb].
Qed.
Lemma special_below : forall f sc def, below (special_scan true f sc def) (special_scan false f sc def).
Proof.
  intros f [n|pred mn mx|n fd|n p] def; cbn [special_scan]; [bb| | |apply sprog_below].
  - unfold chars_scan. bb; [bb|]. bb; [bb|]. bb; [apply chars_loop_below|bb].
  - unfold regex_scan. bb; [bb|]. bb; [bb|]. destruct (fd a0) as [([|k] & len)|]; [|bb|bb].
    match goal with |- context [if ?x then _ else _] => destruct x end; [bb|]. bb; bb.
Qed.
Lemma rep_below : forall sub sub', (forall evs, below (sub evs) (sub' evs)) -> forall f mn mx i temp,
  below (rep_loop true sub f mn mx i temp) (rep_loop false sub' f mn mx i temp).
Proof.
  intros sub sub' Hs. induction f as [|f IH]; intros mn mx i temp; [bb|]. cbn [rep_loop].
  destruct (N.ltb i mx); [|bb]. bb; [bb|]. bb; [bb|]. bb; [apply Hs|]. destruct a1 as (p & t). destruct p as [|e].
  - bb; [bb|]. match goal with |- context [if ?x then _ else _] => destruct x end; [bb|apply IH].
  - bb.
Qed.
Lemma or_below : forall sub sub', (forall a, below (sub a) (sub' a)) -> forall subs, below (or_loop true sub subs) (or_loop false sub' subs).
Proof.
  intros sub sub' Hs. induction subs as [|a subs IH]; [bb|]. cbn [or_loop]. bb; [bb|]. bb; [apply Hs|]. destruct a1 as (p & t).
  destruct p; [bb|]. bb; [bb|]. bb; [exact IH|bb].
Qed.
Lemma capture_below : forall f e, below (capture_loop true f e) (capture_loop false f e).
Proof.
  induction f as [|f IH]; intros e; [bb|]. cbn [capture_loop]. bb; [bb|].
  match goal with |- context [if ?x then _ else _] => destruct x end; [|bb]. bb; [bb|]. bb; [apply IH|bb].
Qed.
Lemma except_below : forall sub sub' : subrun, (forall a evs, below (sub a evs) (sub' a evs)) -> forall f addr factor exc evs,
  below (except_scan true g sub f addr factor exc evs) (except_scan false g sub' f addr factor exc evs).
Proof.
  intros sub sub' Hs f addr factor exc evs. unfold except_scan. bb; [bb|]. bb; [bb|]. bb; [apply Hs|]. destruct a1 as (p & temp). destruct p as [|e]; [|bb].
  bb; [bb|]. bb; [bb|]. bb; [bb|]. bb; [apply capture_below|]. bb; [bb|]. cbn [andb].
  match goal with |- context [if negb ?x then _ else _] => destruct x end; cbn [negb]; [|intros s; right; reflexivity].
  set (test := mbind (sub exc []) (fun '(p, _) => match p with Proceed => m_is_eof true | NotThisWay _ => ret false end)).
  set (test' := mbind (sub' exc []) (fun '(p, _) => match p with Proceed => m_is_eof false | NotThisWay _ => ret false end)).
  assert (At : below test test') by (unfold test, test'; bb; [apply Hs|]; destruct a6 as ([|] & es); bb).
  cbn zeta. destruct (At (mr_of_text a a4)) as [->|E].
  - destruct (fst (test (mr_of_text a a4))) as [[|]|e|x|]; try bb; [bb|]. bb; [apply err_below|bb].
  - rewrite E. intros s. right. reflexivity.
Qed.
Lemma special_step_below : forall sub sub' : subrun, (forall a evs, below (sub a evs) (sub' a evs)) -> forall f addr ins sc evs,
  below (special_step true g sub f addr ins sc evs) (special_step false g sub' f addr ins sc evs).
Proof.
  intros sub sub' Hs f addr ins sc evs. unfold special_step. bb; [bb|]. bb; [apply special_below|]. destruct a0 as [evts| |id].
  - bb.
  - bb; [bb|]. bb; [apply err_below|bb].
  - destruct (g_label g id); [|bb]. bb; [bb|]. bb; [apply Hs|bb].
Qed.
Lemma terminal_below : forall addr ins w evs, below (terminal_step true g addr ins w evs) (terminal_step false g addr ins w evs).
Proof.
  intros. unfold terminal_step. bb; [bb|]. destruct a; [bb; [bb|]; bb; bb|]. bb; [apply err_below|bb].
Qed.
Lemma run_below : forall f next evs, below (run true g f next evs) (run false g f next evs).
Proof.
  induction f as [|f IH]; intros next evs; [bb|]. cbn [run]. destruct next as [addr|]; [|bb]. destruct (nth_error (g_instrs g) addr) as [ins|]; [|bb].
  cbn zeta. assert (Hs : forall a es, below (run true g f (Some a) es) (run false g f (Some a) es)) by (intros; apply IH).
  destruct (i_step ins) as [mn mx s|subs|w|sc| |fa ex|id].
  - bb; [apply rep_below; intros; apply Hs|]. destruct a; [bb|apply IH].
  - bb; [apply or_below; intros; apply Hs|]. destruct a as [es|temp]; [|apply IH]. destruct (pick_error (rev es)) as [err|]; [|bb]. bb; [bb|].
    destruct (loc_eqb (e_loc err) a); [|bb]. bb; [apply err_below|bb].
  - bb; [apply terminal_below|]. destruct a as ([|e] & es); [apply IH|bb].
  - bb; [apply special_step_below; intros; apply Hs|]. destruct a as ([|e] & es); [apply IH|bb].
  - apply IH.
  - bb; [apply except_below; intros; apply Hs|]. destruct a as ([|e] & es); [apply IH|bb].
  - destruct (g_label g id) as [address|]; [|bb]. destruct (g_canonical g id) as [name|]; [|bb]. bb; [bb|]. bb; [apply Hs|]. destruct a0 as ([|e] & temp); [|bb].
    bb; [bb|apply IH].
Qed.
Lemma parse_below : forall f m, below (parser_parse true g f m) (parser_parse false g f m).
Proof.
  intros f m. unfold parser_parse, machine_parse. bb; [apply run_below|]. destruct a as ([|e] & es); [|bb]. bb; [bb|]. destruct a.
  - cbn [andb]. destruct (removed_labels_agree (List.tl es)); cbn [negb]; [bb|]. intros s. right. reflexivity.
  - bb; [apply err_below|bb].
Qed.
End Run.
