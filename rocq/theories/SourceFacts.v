(** A [MarkableReader] over a reader of the user's behaves like one over chunks that give the
    text in the same pieces. *)
From Coq Require Import String List NArith Arith Bool Lia.
From Verif Require Import Base Ident Tokenizer Ast Lex Syntax Io Graph Machine OwnReader OwnSource SpecText SpecIo SpecMachine SpecSource TextFacts IoFacts OwnRel OwnUse.
Import ListNotations.
Open Scope nat_scope.

Section Source.
Variable V : Type.
Variable give : nat -> V -> res str * V.
Variable text : str.
Variable ending : option error.
Variable at_ : V -> nat -> Prop.
Hypothesis G : gives V text ending at_ give.
Variable debug : bool.

(** The pieces [ws] taken in the run of [m1] are, put in front of any chunks [cs] for the
    text left, what [m2] takes. *)
Definition follows (A : Type) (m1 : act (wrapped V) A) (m2 : act mreader A) : Prop :=
  forall v p ub, at_ v p -> exists ws x v' p' ub', m1 (Wrap V v ub) = (x, Wrap V v' ub') /\ at_ v' p' /\ skipn p text = concat ws ++ skipn p' text /\
    forall cs s, concat cs = skipn p' text -> s_end s = ending -> src_chunks (s_chunks s) = src_chunks (ws ++ cs) ->
      exists s', s_end s' = ending /\ src_chunks (s_chunks s') = src_chunks cs /\ m2 (MR s ub) = (x, MR s' ub').

Lemma src_chunks_idem : forall cs, src_chunks (src_chunks cs) = src_chunks cs.
Proof. induction cs as [|[|x c] cs IH]; cbn; auto. Qed.
Lemma src_chunks_nil : forall cs, concat cs = [] -> src_chunks cs = [].
Proof. induction cs as [|[|x c] cs IH]; cbn; auto. discriminate. Qed.

Lemma follows_still : forall A (x : res A) (m1 : act (wrapped V) A) (m2 : act mreader A),
  (forall r, m1 r = (x, r)) -> (forall r, m2 r = (x, r)) -> follows A m1 m2.
Proof.
  intros A x m1 m2 H1 H2 v p ub Hv. exists [], x, v, p, ub. split; [apply H1|]. split; [exact Hv|]. split; [reflexivity|].
  intros cs s Hc He Hs. exists s. split; [exact He|]. split; [exact Hs|apply H2].
Qed.
Lemma follows_keeps : keeps (wrapped V) mreader follows.
Proof.
  split.
  - intros A a. apply (follows_still A (Ok a)); reflexivity.
  - intros A e. apply (follows_still A (Err e)); reflexivity.
  - intros A e. apply (follows_still A (Panic e)); reflexivity.
  - intros A. apply (follows_still A OutOfFuel); reflexivity.
  - intros A B m1 m2 f1 f2 H1 H2 v p ub Hv.
    destruct (H1 v p ub Hv) as (ws & x & v' & p' & ub' & E1 & Hv' & Ht & Hm).
    assert (Hstop : forall y : res B, (match x with Ok _ => False | Err e => y = Err e | Panic e => y = Panic e | OutOfFuel => y = OutOfFuel end) ->
      exists ws x v' p' ub', ubind (wrapped V) m1 f1 (Wrap V v ub) = (x, Wrap V v' ub') /\ at_ v' p' /\ skipn p text = concat ws ++ skipn p' text /\
        forall cs s, concat cs = skipn p' text -> s_end s = ending -> src_chunks (s_chunks s) = src_chunks (ws ++ cs) ->
        exists s', s_end s' = ending /\ src_chunks (s_chunks s') = src_chunks cs /\ ubind mreader m2 f2 (MR s ub) = (x, MR s' ub')).
    { intros y Hy. exists ws, y, v', p', ub'. split; [unfold ubind; rewrite E1; destruct x; [destruct Hy|subst; reflexivity..]|]. split; [exact Hv'|]. split; [exact Ht|].
      intros cs s Hc He Hs. destruct (Hm cs s Hc He Hs) as (s' & K1 & K2 & K3). exists s'. split; [exact K1|]. split; [exact K2|].
      unfold ubind. rewrite K3. destruct x; [destruct Hy|subst; reflexivity..]. }
    destruct x as [a|e|e|]; [|exact (Hstop _ eq_refl)..]. clear Hstop.
    destruct (H2 a v' p' ub' Hv') as (ws2 & y & v2 & p2 & ub2 & E2 & Hv2 & Ht2 & Hm2).
    exists (ws ++ ws2), y, v2, p2, ub2. split; [unfold ubind; rewrite E1; exact E2|]. split; [exact Hv2|].
    split; [rewrite concat_app, <- app_assoc, <- Ht2; exact Ht|].
    intros cs s Hc He Hs. rewrite <- app_assoc in Hs. destruct (Hm (ws2 ++ cs) s) as (s1 & K1 & K2 & K3); [rewrite concat_app, Hc; auto|exact He|exact Hs|].
    destruct (Hm2 cs s1 Hc K1 K2) as (s2 & J1 & J2 & J3). exists s2. split; [exact J1|]. split; [exact J2|]. unfold ubind. rewrite K3. exact J3.
  - intros A f m1 m2 H v p ub Hv. destruct (H v p ub Hv) as (ws & x & v' & p' & ub' & E1 & Hv' & Ht & Hm).
    exists ws, (match x with Ok a => Ok (f a) | Err e => Ok e | Panic e => Panic e | OutOfFuel => OutOfFuel end), v', p', ub'.
    split; [unfold caught; rewrite E1; destruct x; reflexivity|]. split; [exact Hv'|]. split; [exact Ht|].
    intros cs s Hc He Hs. destruct (Hm cs s Hc He Hs) as (s' & K1 & K2 & K3). exists s'. split; [exact K1|]. split; [exact K2|]. unfold caught. rewrite K3. destruct x; reflexivity.
Qed.
Lemma follows_ub : forall A (f : ubuf -> res (A * ubuf)), follows A (w_with_ub V f) (with_ub f).
Proof.
  intros A f v p ub Hv. exists []. unfold w_with_ub, with_ub. cbn [w_ub mr_ub w_src mr_src]. destruct (f ub) as [(a & u)|e|e|].
  1: exists (Ok a), v, p, u. 2: exists (Err e), v, p, ub. 3: exists (Panic e), v, p, ub. 4: exists OutOfFuel, v, p, ub.
  all: split; [reflexivity|]; split; [exact Hv|]; split; [reflexivity|]; intros cs s Hc He Hs; exists s; split; [exact He|]; split; [exact Hs|reflexivity].
Qed.
Lemma follows_read_chars : forall n, 0 < n -> follows str (w_read_chars V give debug n) (m_read_chars debug n).
Proof.
  intros n Hn v p ub Hv. unfold w_read_chars, m_read_chars. cbn [w_ub mr_ub w_src mr_src]. destruct (ub_remains ub).
  { destruct (ub_read n ub) as (out & u). exists [], (Ok out), v, p, u. split; [reflexivity|]. split; [exact Hv|]. split; [reflexivity|].
    intros cs s Hc He Hs. exists s. auto. }
  destruct (G v p n Hv Hn) as [(w & v' & rest & E & Ht & Hl & Hw & Hv')|(e & v' & E & He & Ht & Hv')]; rewrite E.
  2:{ exists [], (Err (Error_ (ub_loc ub) (MWrapped (e_loc e) (e_msg e)))), v', p, ub. split; [reflexivity|]. split; [exact Hv'|]. split; [reflexivity|].
      intros cs s Hc Hend Hs. cbn [app] in Hs. rewrite Ht in Hc. rewrite (src_chunks_nil cs Hc) in *. exists (Src [] (s_end s)). split; [exact Hend|]. split; [reflexivity|].
      unfold src_read. rewrite Hs, Hend, He. reflexivity. }
  assert (Hp : skipn (p + length w) text = rest).
  { apply skipn_step. exact Ht. }
  destruct w as [|x w].
  { destruct (Hw eq_refl) as (-> & Hend'). cbn [length] in Hv', Hp. rewrite Nat.add_0_r in Hv', Hp. exists [], (Ok []), v', p, ub. split; [reflexivity|]. split; [exact Hv'|]. split; [reflexivity|].
    intros cs s Hc Hend Hs. cbn [app] in Hs. rewrite Hp in Hc. rewrite (src_chunks_nil cs Hc) in *. exists (Src [] (s_end s)). split; [exact Hend|]. split; [reflexivity|].
    unfold src_read. rewrite Hs, Hend, Hend'. reflexivity. }
  set (w' := x :: w) in *. assert (Hread : forall cs s, s_end s = ending -> src_chunks (s_chunks s) = src_chunks ([w'] ++ cs) -> src_read n s = (Ok w', Src ([] :: cs) ending)).
  { intros cs s Hend Hs. unfold src_read. rewrite Hs. subst w'. cbn [app src_chunks]. rewrite firstn_all2, skipn_all2, Hend by exact Hl. reflexivity. }
  exists [w']. destruct (ub_append debug w' ub) as [u|e|e|] eqn:Ea.
  1: exists (Ok w'), v', (p + length w'), u. 2: exists (Err e), v', (p + length w'), ub. 3: exists (Panic e), v', (p + length w'), ub. 4: exists OutOfFuel, v', (p + length w'), ub.
  all: split; [subst w'; reflexivity|]; split; [exact Hv'|]; split; [cbn [concat]; rewrite app_nil_r, Hp; exact Ht|];
    intros cs s Hc Hend Hs; exists (Src ([] :: cs) ending); split; [reflexivity|]; split; [reflexivity|]; rewrite (Hread cs s Hend Hs); subst w'; cbv iota beta; rewrite Ea; reflexivity.
Qed.
Ltac fl := apply (kp_bind _ _ _ follows_keeps).
Ltac fret := apply (kp_ret _ _ _ follows_keeps).
Lemma follows_read : follows _ (default_read _ (w_required V give debug)) (m_read debug).
Proof. unfold default_read, m_read. change (@mbind) with (@ubind mreader). fl; [apply follows_read_chars; lia|]. intros a. fret. Qed.
Lemma follows_prefix_loop : forall w, follows _ (default_prefix_loop _ (w_required V give debug) w) (m_prefix_loop debug w).
Proof.
  induction w as [|x w IH]; cbn [default_prefix_loop m_prefix_loop]; [fret|]. change (@mbind) with (@ubind mreader). fl; [apply follows_read|].
  intros [c|]; [|fret]. destruct (N.eqb c x); [exact IH|fret].
Qed.
Lemma follows_peek_loop : forall n, follows _ (default_peek_loop _ (w_required V give debug) n) (m_peek_loop debug n).
Proof.
  induction n as [|n IH]; cbn [default_peek_loop m_peek_loop]; [fret|]. change (@mbind) with (@ubind mreader). fl; [apply follows_read|].
  intros [c|]; [|fret]. fl; [exact IH|]. intros r. fret.
Qed.
Lemma follows_skip_loop : forall f n, follows _ (default_skip_loop _ (w_required V give debug) f n) (m_skip_loop debug f n).
Proof.
  induction f as [|f IH]; intros n; cbn [default_skip_loop m_skip_loop]; [apply (kp_fuel _ _ _ follows_keeps)|]. destruct n as [|n]; [fret|].
  change (@mbind) with (@ubind mreader). fl; [apply follows_read_chars; unfold io_buffer; lia|]. intros [|c w]; [fret|apply IH].
Qed.
Lemma follows_alike : alike (wrapped V) mreader follows (w_methods V give debug) (library_methods debug).
Proof.
  split; unfold w_methods, with_defaults, w_required, library_methods; cbn [u_location u_mark u_reset u_unmark u_read u_is_eof u_prefix u_peek u_skip q_location q_mark q_reset q_unmark q_read_chars].
  - unfold own_location. cbn [u_location]. intros v p ub Hv. exists [], (Ok (ub_loc ub)), v, p, ub. split; [reflexivity|]. split; [exact Hv|]. split; [reflexivity|]. intros cs s Hc He Hs. exists s. auto.
  - apply follows_ub.
  - intros m. apply follows_ub.
  - intros m. apply follows_ub.
  - apply follows_read.
  - unfold default_is_eof, m_is_eof. change (@mbind) with (@ubind mreader). fl; [apply follows_ub|]. intros m. fl; [apply follows_read|]. intros c. fl; [apply follows_ub|]. intros _. fret.
  - intros w. unfold default_prefix, m_prefix_matches. change (@mbind) with (@ubind mreader). fl; [apply follows_ub|]. intros m. fl; [apply follows_prefix_loop|]. intros c. fl; [apply follows_ub|]. intros _. fret.
  - intros n. unfold default_peek, m_peek. change (@mbind) with (@ubind mreader). fl; [apply follows_ub|]. intros m. fl; [apply follows_peek_loop|]. intros c. fl; [apply follows_ub|]. intros _. fret.
  - intros n. unfold default_skip, m_skip. change (@mbind) with (@ubind mreader). fl; [apply follows_skip_loop|]. intros c. fret.
Qed.

Lemma source_parse : forall g fuel m v p ub, at_ v p -> exists cs v' p' ub' cs', concat cs = skipn p text /\
  own_parse (w_methods V give debug) debug g fuel m (Wrap V v ub) = (fst (parser_parse debug g fuel m (MR (Src cs ending) ub)), Wrap V v' ub') /\
  at_ v' p' /\ concat cs' = skipn p' text /\ snd (parser_parse debug g fuel m (MR (Src cs ending) ub)) = MR (Src cs' ending) ub'.
Proof.
  intros g fuel m v p ub Hv.
  destruct (rel_parse _ _ _ follows_keeps _ _ follows_alike debug g fuel m v p ub Hv) as (ws & x & v' & p' & ub' & E & Hv' & Ht & Hm).
  destruct (Hm [skipn p' text] (Src (ws ++ [skipn p' text]) ending)) as (s' & K1 & K2 & K3); [cbn; apply app_nil_r|reflexivity|reflexivity|].
  rewrite own_library in K3. destruct s' as (cs' & e'). cbn [s_end s_chunks] in K1, K2. subst e'. exists (ws ++ [skipn p' text]), v', p', ub', cs'.
  split; [rewrite concat_app; cbn; rewrite app_nil_r; auto|]. rewrite K3. split; [exact E|]. split; [exact Hv'|]. split; [|reflexivity].
  assert (Hc : forall l, concat (src_chunks l) = concat l) by (induction l as [|[|y c] l IH]; cbn; auto).
  rewrite <- (Hc cs'), K2, Hc. cbn. apply app_nil_r.
Qed.

Lemma follows_said : forall A (f : A -> answer) m1 m2, follows A m1 m2 -> follows answer (said f m1) (fun r => lift f (m2 r)).
Proof.
  intros A f m1 m2 H v p ub Hv. destruct (H v p ub Hv) as (ws & x & v' & p' & ub' & E1 & Hv' & Ht & Hm).
  exists ws, (match x with Ok a => Ok (f a) | Err e => Ok (AFail e) | Panic e => Panic e | OutOfFuel => OutOfFuel end), v', p', ub'.
  split; [unfold said; rewrite E1; destruct x; reflexivity|]. split; [exact Hv'|]. split; [exact Ht|].
  intros cs s Hc He Hs. destruct (Hm cs s Hc He Hs) as (s' & K1 & K2 & K3). exists s'. split; [exact K1|]. split; [exact K2|]. rewrite K3. reflexivity.
Qed.
Lemma follows_call : forall o, o <> ORead 0 -> o <> OReadAll ->
  follows answer (own_call (w_required V give debug) (w_methods V give debug) o) (perform1 debug o).
Proof.
  intros o H0 Ha. pose proof follows_alike as X. destruct o as [n| |m|m| | |w|n|n|]; cbn [own_call perform1]; try (apply follows_said).
  - apply follows_read_chars. destruct n; [contradiction|lia].
  - apply (al_mark _ _ _ _ _ X).
  - apply (al_reset _ _ _ _ _ X).
  - apply (al_unmark _ _ _ _ _ X).
  - apply (al_location _ _ _ _ _ X).
  - apply (al_is_eof _ _ _ _ _ X).
  - apply (al_prefix _ _ _ _ _ X).
  - apply (al_peek _ _ _ _ _ X).
  - apply (al_skip _ _ _ _ _ X).
  - contradiction.
Qed.
Lemma source_calls : forall os, Forall (fun o => o <> ORead 0 /\ o <> OReadAll) os -> forall v p ub, at_ v p ->
  exists ws answers x v' p' ub', own_calls (w_required V give debug) (w_methods V give debug) os (Wrap V v ub) = (answers, x, Wrap V v' ub') /\ at_ v' p' /\ skipn p text = concat ws ++ skipn p' text /\
    forall cs s, concat cs = skipn p' text -> s_end s = ending -> src_chunks (s_chunks s) = src_chunks (ws ++ cs) ->
      exists s', s_end s' = ending /\ src_chunks (s_chunks s') = src_chunks cs /\ perform debug os (MR s ub) = (answers, x, MR s' ub').
Proof.
  induction os as [|o os IH]; intros Ho v p ub Hv.
  { exists [], [], None, v, p, ub. split; [reflexivity|]. split; [exact Hv|]. split; [reflexivity|]. intros cs s Hc He Hs. exists s. auto. }
  inversion Ho as [|? ? (H0 & Ha) Ho']; subst. destruct (follows_call o H0 Ha v p ub Hv) as (ws & x & v1 & p1 & ub1 & E1 & Hv1 & Ht & Hm).
  cbn [own_calls perform]. rewrite E1. destruct x as [a|e|e|].
  { destruct (IH Ho' v1 p1 ub1 Hv1) as (ws2 & an & y & v2 & p2 & ub2 & E2 & Hv2 & Ht2 & Hm2). rewrite E2.
    exists (ws ++ ws2), (a :: an), y, v2, p2, ub2. split; [reflexivity|]. split; [exact Hv2|]. split; [rewrite concat_app, <- app_assoc, <- Ht2; exact Ht|].
    intros cs s Hc He Hs. rewrite <- app_assoc in Hs. destruct (Hm (ws2 ++ cs) s) as (s1 & K1 & K2 & K3); [rewrite concat_app, Hc; auto|exact He|exact Hs|].
    destruct (Hm2 cs s1 Hc K1 K2) as (s2 & J1 & J2 & J3). exists s2. split; [exact J1|]. split; [exact J2|]. rewrite K3, J3. reflexivity. }
  all: eexists ws, [], _, v1, p1, ub1; split; [reflexivity|]; split; [exact Hv1|]; split; [exact Ht|];
    intros cs s Hc He Hs; destruct (Hm cs s Hc He Hs) as (s' & K1 & K2 & K3); exists s'; split; [exact K1|]; split; [exact K2|]; rewrite K3; reflexivity.
Qed.
Lemma source_history : forall os v p ub, at_ v p -> Forall (fun o => o <> ORead 0 /\ o <> OReadAll) os ->
  exists cs answers x r r', concat cs = skipn p text /\ own_calls (w_required V give debug) (w_methods V give debug) os (Wrap V v ub) = (answers, x, r) /\
    perform debug os (MR (Src cs ending) ub) = (answers, x, r').
Proof.
  intros os v p ub Hv Ho. destruct (source_calls os Ho v p ub Hv) as (ws & an & x & v' & p' & ub' & E & Hv' & Ht & Hm).
  destruct (Hm [skipn p' text] (Src (ws ++ [skipn p' text]) ending)) as (s' & K1 & K2 & K3); [cbn; apply app_nil_r|reflexivity|reflexivity|].
  exists (ws ++ [skipn p' text]), an, x, (Wrap V v' ub'), (MR s' ub'). split; [rewrite concat_app; cbn; rewrite app_nil_r; auto|]. auto.
Qed.
End Source.
