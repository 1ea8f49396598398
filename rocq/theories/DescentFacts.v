(** The recursive descent looks at one token beyond what it reads. *)
From Coq Require Import String List NArith Arith Bool Lia.
From Verif Require Import Base Tokenizer Ast Lex SpecText SpecTok SpecLex SpecGram TextFacts TokFacts TokRun LexRun GramFacts.
Import ListNotations.
Open Scope nat_scope.

Ltac assoc := cbn [app]; repeat (rewrite <- app_assoc; cbn [app]); reflexivity.

Lemma skip_head : forall tr t r, all_trivia tr -> triviab t = false -> skip_trivia (tr ++ t :: r) = t :: r.
Proof. intros. rewrite skip_app by assumption. apply skip_cons. assumption. Qed.
Lemma skip_front : forall p t r r', (forall x y, p ++ t :: r = x :: y -> triviab x = false) -> skip_trivia (p ++ t :: r') = p ++ t :: r'.
Proof. intros [|y p] t r r' H; cbn [app] in *; apply skip_cons; eapply H; reflexivity. Qed.

Lemma close_again : forall o c ts d sub nx, find_close o c d ts = Some (sub, nx) -> exists tc, ts = sub ++ tc :: nx /\ c tc = true /\
  (forall nx', find_close o c d (sub ++ tc :: nx') = Some (sub, nx')) /\
  (forall a b y sub' nx', sub = a ++ b -> find_close o c d (a ++ y) = Some (sub', nx') -> exists y', sub' = a ++ y').
Proof.
  induction ts as [|t ts IH]; intros d sub nx H; cbn [find_close] in H; [discriminate|].
  assert (K : forall d', match find_close o c d' ts with Some (a, b) => Some (t :: a, b) | None => None end = Some (sub, nx) ->
    (forall r, find_close o c d (t :: r) = match find_close o c d' r with Some (a, b) => Some (t :: a, b) | None => None end) ->
    exists tc, t :: ts = sub ++ tc :: nx /\ c tc = true /\
      (forall nx', find_close o c d (sub ++ tc :: nx') = Some (sub, nx')) /\
      (forall a b y sub' nx', sub = a ++ b -> find_close o c d (a ++ y) = Some (sub', nx') -> exists y', sub' = a ++ y')).
  { intros d' E Hd. destruct (find_close o c d' ts) as [(a & b)|] eqn:Ef; [|discriminate]. injection E as <- <-.
    destruct (IH _ _ _ Ef) as (tc & -> & Hc & H1 & H2). exists tc. split; [reflexivity|]. split; [exact Hc|]. split.
    - intros nx'. cbn [app]. rewrite Hd, H1. reflexivity.
    - intros [|x a1] b1 y sub' nx' E1 E2; [exists sub'; reflexivity|]. cbn [app] in E1, E2. injection E1 as <- ->. rewrite Hd in E2.
      destruct (find_close o c d' (a1 ++ y)) as [(s1 & n1)|] eqn:E3; [|discriminate]. injection E2 as <- <-.
      destruct (H2 a1 b1 y s1 n1 eq_refl E3) as (y' & ->). exists y'. reflexivity. }
  destruct (o t) eqn:Eo; [apply (K (S d) H); intros r; cbn [find_close]; rewrite Eo; reflexivity|].
  destruct (c t) eqn:Ec; [|apply (K d H); intros r; cbn [find_close]; rewrite Eo, Ec; reflexivity].
  destruct d as [|d]; [|apply (K d H); intros r; cbn [find_close]; rewrite Eo, Ec; reflexivity].
  injection H as <- <-. exists t. split; [reflexivity|]. split; [exact Ec|]. split.
  - intros nx'. cbn [app find_close]. rewrite Eo, Ec. reflexivity.
  - intros a b y sub' nx' E1 _. symmetry in E1. apply app_eq_nil in E1 as (-> & _). exists sub'. reflexivity.
Qed.
Lemma rmi_again : forall ts id lo id' lo' y n, rmi_loop id lo ts = (id', lo', y :: n) ->
  exists w, ts = w ++ y :: n /\ forall id lo n', exists id2 lo2, rmi_loop id lo (w ++ y :: n') = (id2, lo2, y :: n').
Proof.
  induction ts as [|t ts IH]; intros id lo id' lo' y n H; [discriminate|].
  destruct t; cbn [rmi_loop] in H; try (injection H as <- <- <- <-; exists []; split; [reflexivity|]; intros; eexists _, _; reflexivity).
  all: apply IH in H as (w & -> & K); eexists (_ :: w); split; [reflexivity|]; intros; cbn [app rmi_loop]; apply K.
Qed.

(** Having read [p] and met [t], it reads [p] whatever is behind [t]. *)
Definition again {A} (rd : nat -> list token -> list token -> res (A * list token)) (ts : list token) (t : token) (r : list token) : Prop :=
  exists p, ts = p ++ t :: r /\ forall f all r' x nx, rd f all (p ++ t :: r') = Ok (x, nx) -> skip_trivia nx = t :: r'.
Lemma again_all : forall f,
  (forall all ts x nx t r, read_single_definition f all ts = Ok (x, nx) -> skip_trivia nx = t :: r -> again read_single_definition ts t r) /\
  (forall all ts x nx t r, read_syntactic_term f all ts = Ok (x, nx) -> skip_trivia nx = t :: r -> again read_syntactic_term ts t r) /\
  (forall all ts x nx t r, read_syntactic_factor f all ts = Ok (x, nx) -> skip_trivia nx = t :: r -> again read_syntactic_factor ts t r) /\
  (forall all ts x nx t r, read_syntactic_primary f all ts = Ok (x, nx) -> skip_trivia nx = t :: r -> again read_syntactic_primary ts t r).
Proof.
  induction f as [|f (IHsd & IHtm & IHfa & IHpr)]; [repeat split; intros; discriminate|].
  assert (Hnt : forall ts t r, skip_trivia ts = t :: r -> triviab t = false).
  { intros ts t r E. destruct (skip_split ts) as (tr & _ & _ & H). eapply H. exact E. }
  split; [|split; [|split]].
  - intros all ts x nx t r H Hs. cbn [read_single_definition] in H. apply bind_ok in H as ((tm & nx1) & Etm & H).
    destruct (skip_trivia nx1) as [|t1 r1] eqn:Es1; [injection H as <- <-; discriminate|].
    destruct (IHtm _ _ _ _ _ _ Etm Es1) as (p & -> & K). pose proof (Hnt _ _ _ Es1) as Ht1.
    destruct t1; cbn [is_terminator] in H; try discriminate.
    1: { (* concatenation *) apply bind_ok in H as ((tms & nx2) & Erec & H). injection H as <- <-.
      destruct (IHsd _ _ _ _ _ _ Erec Hs) as (p2 & -> & K2). exists (p ++ TConcat l :: p2). split; [assoc|].
      intros f' all' r' x' nx' E. destruct f' as [|f']; [discriminate|]. cbn [read_single_definition] in E. apply bind_ok in E as ((tm' & nx3) & E3 & E).
      replace ((p ++ TConcat l :: p2) ++ t :: r') with (p ++ TConcat l :: p2 ++ t :: r') in E3 by assoc. apply K in E3. rewrite E3 in E.
      apply bind_ok in E as ((tms' & nx4) & E4 & E). injection E as <- <-. eapply K2. exact E4. }
    all: injection H as <- <-; rewrite (skip_cons _ _ Ht1) in Hs; injection Hs as <- <-; exists p; split; [reflexivity|]; intros f' all' r' x' nx' E;
      destruct f' as [|f']; [discriminate|]; cbn [read_single_definition] in E; apply bind_ok in E as ((tm' & nx3) & E3 & E);
      apply K in E3; rewrite E3 in E; injection E as <- <-; apply skip_cons; exact Ht1.
  - intros all ts x nx t r H Hs. cbn [read_syntactic_term] in H. apply bind_ok in H as ((fa & nx1) & Efa & H).
    destruct (skip_trivia nx1) as [|t1 r1] eqn:Es1; [injection H as <- <-; discriminate|].
    destruct (IHfa _ _ _ _ _ _ Efa Es1) as (p & -> & K). pose proof (Hnt _ _ _ Es1) as Ht1.
    destruct t1.
    2: { apply bind_ok in H as ((ex & nx2) & Eex & H). injection H as <- <-.
      destruct (IHfa _ _ _ _ _ _ Eex Hs) as (p2 & -> & K2). exists (p ++ TExcept l :: p2). split; [assoc|].
      intros f' all' r' x' nx' E. destruct f' as [|f']; [discriminate|]. cbn [read_syntactic_term] in E. apply bind_ok in E as ((tm' & nx3) & E3 & E).
      replace ((p ++ TExcept l :: p2) ++ t :: r') with (p ++ TExcept l :: p2 ++ t :: r') in E3 by assoc. apply K in E3. rewrite E3 in E.
      apply bind_ok in E as ((tms' & nx4) & E4 & E). injection E as <- <-. eapply K2. exact E4. }
    all: injection H as <- <-; rewrite (skip_cons _ _ Ht1) in Hs; injection Hs as <- <-; exists p; split; [reflexivity|]; intros f' all' r' x' nx' E;
      destruct f' as [|f']; [discriminate|]; cbn [read_syntactic_term] in E; apply bind_ok in E as ((tm' & nx3) & E3 & E);
      apply K in E3; rewrite E3 in E; injection E as <- <-; apply skip_cons; exact Ht1.
  - intros all ts x nx t r H Hs. cbn [read_syntactic_factor] in H. apply bind_ok in H as ((n & nx1) & En & H). apply bind_ok in H as ((q & nx2) & Ep & H). injection H as <- <-.
    destruct (IHpr _ _ _ _ _ _ Ep Hs) as (p & -> & K).
    destruct (skip_split ts) as (tr & Ets & Htr & Hn). remember (skip_trivia ts) as sk eqn:Es. clear Es.
    assert (Honce : Ok (1%N, sk) = Ok (n, p ++ t :: r) -> match sk with TInteger _ _ :: _ => False | _ => True end -> again read_syntactic_factor ts t r).
    { intros E Hi. injection E as <- ->. exists (tr ++ p). split; [rewrite Ets; assoc|]. intros f' all' r' x' nx' E.
      destruct f' as [|f']; [discriminate|]. cbn [read_syntactic_factor] in E. rewrite <- app_assoc, skip_app, (skip_front p t r r') in E by assumption.
      assert (Hi' : match p ++ t :: r' with TInteger _ _ :: _ => False | _ => True end) by (destruct p; exact Hi).
      apply bind_ok in E as ((n' & nx5) & En' & E). apply bind_ok in E as ((q' & nx3) & Ep' & E). injection E as <- <-.
      assert (nx5 = p ++ t :: r') as ->. { destruct (p ++ t :: r') as [|[] ?]; try (injection En' as <- <-; reflexivity); destruct Hi'. }
      eapply K. exact Ep'. }
    destruct sk as [|t0 r0]; [apply Honce; [exact En|exact I]|]. destruct t0; try (apply Honce; [exact En|exact I]).
    destruct (parse_u32 s) as [m|] eqn:Em; [|discriminate]. destruct (skip_split r0) as (tr2 & Er & Htr2 & Hn2).
    destruct (skip_trivia r0) as [|t1 r2] eqn:Es2; [discriminate|]. destruct t1; try discriminate. injection En as <- E.
    destruct (skip_split r2) as (tr3 & Er2 & Htr3 & Hn3). rewrite E in Er2, Hn3. exists (tr ++ TInteger l s :: tr2 ++ TRepetition l0 :: tr3 ++ p).
    split; [rewrite Ets, Er, Er2; assoc|]. intros f' all' r' x' nx' E'. destruct f' as [|f']; [discriminate|]. cbn [read_syntactic_factor] in E'.
    replace ((tr ++ TInteger l s :: tr2 ++ TRepetition l0 :: tr3 ++ p) ++ t :: r') with (tr ++ TInteger l s :: tr2 ++ TRepetition l0 :: tr3 ++ p ++ t :: r') in E' by assoc.
    rewrite (skip_head tr) in E' by auto. rewrite Em, (skip_head tr2) in E' by auto. rewrite (skip_app tr3), (skip_front p t r r') in E' by assumption. cbn [bind] in E'.
    apply bind_ok in E' as ((q' & nx3) & Ep' & E'). injection E' as <- <-. eapply K. exact Ep'.
  - intros all ts x nx t r H Hs. cbn [read_syntactic_primary] in H.
    destruct (skip_split ts) as (tr & Ets & Htr & Hn). destruct (skip_trivia ts) as [|t0 r0] eqn:Es; [injection H as <- <-; discriminate|]. specialize (Hn t0 r0 eq_refl).
    assert (Hstop : Ok (PEmpty (tok_loc t0), t0 :: r0) = Ok (x, nx) -> match t0 with TStartOption _ _ | TStartRepeat _ _ | TStartGroup _ | TMeta _ _ | TTerminal _ _ _ | TSpecial _ _ => False | _ => True end -> again read_syntactic_primary ts t r).
    { intros E Hk. injection E as <- <-. rewrite (skip_cons _ _ Hn) in Hs. injection Hs as <- <-. exists tr. split; [exact Ets|]. intros f' all' r' x' nx' E'.
      destruct f' as [|f']; [discriminate|]. cbn [read_syntactic_primary] in E'. rewrite skip_head in E' by assumption.
      destruct t0; try destruct Hk; injection E' as <- <-; apply skip_cons; exact Hn. }
    assert (Hone : Ok nx = Ok r0 -> (forall f' all' r', exists y, read_syntactic_primary (S f') all' (tr ++ t0 :: r') = Ok (y, r')) -> again read_syntactic_primary ts t r).
    { intros E Hk. injection E as ->. destruct (skip_split r0) as (tr2 & E2 & Htr2 & Hn2). rewrite Hs in E2. exists (tr ++ t0 :: tr2). split; [rewrite Ets, E2; assoc|].
      intros f' all' r' x' nx' E'. destruct f' as [|f']; [discriminate|]. destruct (Hk f' all' (tr2 ++ t :: r')) as (y & Ey).
      replace ((tr ++ t0 :: tr2) ++ t :: r') with (tr ++ t0 :: tr2 ++ t :: r') in E' by assoc. rewrite Ey in E'. injection E' as <- <-. apply skip_head; [exact Htr2|eauto]. }
    assert (Henc : forall o c (mk : definition_list -> primary),
       bind (match find_close o c 0 r0 with
             | Some (sub, nx) => let? d := read_definition_list f sub sub in Ok (d, nx)
             | None => Err {| e_loc := tok_loc t0; e_msg := MNotClosed (tok_name t0) (tok_debug t0) |}
             end) (fun '(d, nx) => Ok (mk d, nx)) = Ok (x, nx) ->
       (forall f' all' r1, (exists a b, r0 = a :: b /\ exists b', r1 = a :: b') -> forall x' nx', read_syntactic_primary (S f') all' (tr ++ t0 :: r1) = Ok (x', nx') -> exists sub, find_close o c 0 r1 = Some (sub, nx')) ->
       again read_syntactic_primary ts t r).
    { intros o c mk E Hk. apply bind_ok in E as ((d & nx') & E & E2). injection E2 as <- <-. destruct (find_close o c 0 r0) as [[sub nx1]|] eqn:Ef; [|discriminate].
      apply bind_ok in E as (d' & E & E2). injection E2 as <- <-. destruct (close_again _ _ _ _ _ _ Ef) as (tc & -> & Hc & K & _).
      destruct (skip_split nx1) as (tr2 & E2 & Htr2 & Hn2). rewrite Hs in E2. exists (tr ++ t0 :: sub ++ tc :: tr2). split; [rewrite Ets, E2; assoc|].
      intros f' all' r' x' nx' E'. destruct f' as [|f']; [discriminate|].
      replace ((tr ++ t0 :: sub ++ tc :: tr2) ++ t :: r') with (tr ++ t0 :: sub ++ tc :: tr2 ++ t :: r') in E' by assoc.
      apply Hk in E' as (sub' & E'); [|destruct sub as [|y sub]; [exists tc, nx1|exists y, (sub ++ tc :: nx1)]; (split; [reflexivity|eexists; reflexivity])]. rewrite K in E'. injection E' as <- <-. apply skip_head; [exact Htr2|eauto]. }
    destruct t0; try (apply Hstop; [exact H|exact I]).
    + destruct (str_eqb s [c_lpar; c_slash] && _) eqn:Eq; [discriminate|]. apply (Henc _ _ _ H). intros f' all' r1 (y & b & E1 & b' & E2) x' nx' E'. cbn [read_syntactic_primary] in E'. rewrite skip_head in E' by auto. subst r0 r1. rewrite Eq in E'.
      destruct (find_close _ _ 0 (y :: b')) as [[sub nx1]|] eqn:Ef; [|discriminate]. apply bind_ok in E' as ((d & n1) & E' & E3). injection E3 as <- <-. apply bind_ok in E' as (d' & _ & E3). injection E3 as <- <-. eauto.
    + destruct (str_eqb s [c_lpar; c_colon] && _) eqn:Eq; [discriminate|]. apply (Henc _ _ _ H). intros f' all' r1 (y & b & E1 & b' & E2) x' nx' E'. cbn [read_syntactic_primary] in E'. rewrite skip_head in E' by auto. subst r0 r1. rewrite Eq in E'.
      destruct (find_close _ _ 0 (y :: b')) as [[sub nx1]|] eqn:Ef; [|discriminate]. apply bind_ok in E' as ((d & n1) & E' & E3). injection E3 as <- <-. apply bind_ok in E' as (d' & _ & E3). injection E3 as <- <-. eauto.
    + apply (Henc _ _ _ H). intros f' all' r1 (y & b & E1 & b' & E2) x' nx' E'. cbn [read_syntactic_primary] in E'. rewrite skip_head in E' by auto. subst r0 r1.
      destruct (find_close _ _ 0 (y :: b')) as [[sub nx1]|] eqn:Ef; [|discriminate]. apply bind_ok in E' as ((d & n1) & E' & E3). injection E3 as <- <-. apply bind_ok in E' as (d' & _ & E3). injection E3 as <- <-. eauto.
    + destruct (read_meta_identifier (TMeta l s :: r0)) as ((id & lo) & nx1) eqn:Er. injection H as <- <-. unfold read_meta_identifier in Er. rewrite (skip_cons _ _ Hn) in Er.
      destruct (rmi_loop [] None (TMeta l s :: r0)) as ((id1 & lo1) & nx2) eqn:Er2. injection Er as <- <- <-.
      destruct nx2 as [|y n2]; [discriminate|]. cbn [rmi_loop] in Er2. apply rmi_again in Er2 as (w & -> & K).
      destruct (skip_split (y :: n2)) as (tr2 & E2 & Htr2 & Hn2). rewrite Hs in E2. exists (tr ++ TMeta l s :: w ++ tr2). split; [rewrite Ets, E2; assoc|].
      intros f' all' r' x' nx' E'. destruct f' as [|f']; [discriminate|]. replace ((tr ++ TMeta l s :: w ++ tr2) ++ t :: r') with (tr ++ TMeta l s :: w ++ tr2 ++ t :: r') in E' by assoc.
      cbn [read_syntactic_primary] in E'. rewrite skip_head in E' by auto. unfold read_meta_identifier in E'. rewrite (skip_cons _ _ Hn) in E'. cbn [rmi_loop] in E'.
      assert (Ey : exists n', tr2 ++ t :: r' = y :: n'). { destruct tr2 as [|z tr2]; cbn [app] in E2 |- *; injection E2 as -> _; eexists; reflexivity. }
      destruct Ey as (n' & Ey). rewrite Ey in E'. destruct (K ([] ++ s) (Some l) n') as (id2 & lo2 & K2). cbn [app] in E', K2. rewrite K2 in E'. injection E' as <- <-. rewrite <- Ey. apply skip_head; [exact Htr2|eauto].
    + injection H as <- <-. apply Hone; [reflexivity|]. intros. cbn [read_syntactic_primary]. rewrite skip_head by auto. eauto.
    + injection H as <- <-. apply Hone; [reflexivity|]. intros. cbn [read_syntactic_primary]. rewrite skip_head by auto. eauto.
Qed.
Lemma rmi_exact : forall ts id lo id' lo' y n, rmi_loop id lo ts = (id', lo', y :: n) ->
  exists w, ts = w ++ y :: n /\ forall n', rmi_loop id lo (w ++ y :: n') = (id', lo', y :: n').
Proof.
  induction ts as [|t ts IH]; intros id lo id' lo' y n H; [discriminate|].
  destruct t; cbn [rmi_loop] in H; try (injection H as <- <- <- <-; exists []; split; reflexivity).
  all: apply IH in H as (w & -> & K); eexists (_ :: w); split; [reflexivity|]; intros; cbn [app rmi_loop]; apply K.
Qed.
Lemma meta_again : forall ts id lo nx t r, read_meta_identifier ts = (id, lo, nx) -> skip_trivia nx = t :: r ->
  exists p, ts = p ++ t :: r /\ forall r', exists nx', read_meta_identifier (p ++ t :: r') = (id, lo, nx') /\ skip_trivia nx' = t :: r'.
Proof.
  intros ts id lo nx t r H Hs. unfold read_meta_identifier in H. destruct (skip_split ts) as (tr & Ets & Htr & Hn).
  destruct (rmi_loop [] None (skip_trivia ts)) as ((id1 & lo1) & nx1) eqn:Er. injection H as <- <- <-.
  destruct nx1 as [|y n]; [discriminate|]. apply rmi_exact in Er as (w & Ew & K). rewrite Ew in Ets, Hn.
  destruct (skip_split (y :: n)) as (tr2 & E2 & Htr2 & Hn2). rewrite Hs in E2, Hn2. pose proof (Hn2 _ _ eq_refl) as Ht.
  exists (tr ++ w ++ tr2). split; [rewrite Ets, E2; assoc|]. intros r'.
  assert (Ey : exists n', tr2 ++ t :: r' = y :: n'). { destruct tr2 as [|z tr2]; cbn [app] in E2 |- *; injection E2 as -> _; eexists; reflexivity. }
  destruct Ey as (n' & Ey). exists (y :: n'). split; [|rewrite <- Ey; apply skip_head; assumption].
  unfold read_meta_identifier. replace ((tr ++ w ++ tr2) ++ t :: r') with (tr ++ w ++ tr2 ++ t :: r') by assoc. rewrite Ey, skip_app by exact Htr.
  rewrite (skip_front w y n n' Hn), K. reflexivity.
Qed.
