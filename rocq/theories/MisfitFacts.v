(** Facts about tokens that do not fit. *)
From Coq Require Import String List NArith Arith Bool Lia.
From Verif Require Import Base Tokenizer Ast Lex SpecText SpecTok SpecLex SpecGram SpecTree TextFacts TokFacts TokRun LexRun GramFacts GramText DescentFacts SpecFault FaultFacts.
Import ListNotations.
Open Scope nat_scope.

(** ** Completions: each token behind a comment *)
Definition nl : location := Loc [] 0 0.
Definition pad : token := TComment nl [].
Inductive filler : token -> Prop :=
| fi_times : filler (TRepetition nl)
| fi_option : filler (TEndOption nl [c_rbrk])
| fi_repeat : filler (TEndRepeat nl [c_rbrace])
| fi_group : filler (TEndGroup nl)
| fi_terminator : filler (TTerminator nl c_semi)
| fi_defining : filler (TDefining nl).
Definition padded (xs : list token) : list token := flat_map (fun x => [pad; x]) xs.
Lemma padded_last : forall xs x w, map erase w = padded (xs ++ [x]) -> exists w1 k y, w = w1 ++ [k; y] /\ map erase w1 = padded xs /\ trivia k /\ erase y = x.
Proof.
  intros xs x w H. unfold padded in H. rewrite flat_map_app in H. cbn [flat_map app] in H. apply map_eq_app in H as (w1 & w2 & -> & E1 & E2).
  destruct w2 as [|k [|y [|? ?]]]; try discriminate. cbn in E2. injection E2 as E2 E3. exists w1, k, y. split; [reflexivity|]. split; [exact E1|]. split; [|exact E3].
  destruct k; try discriminate. exact I.
Qed.
Lemma padded_nil : forall w, map erase w = padded [] -> w = [].
Proof. intros [|x w] H; [reflexivity|discriminate]. Qed.

(** ** Trailing trivia *)
Lemma g_single_tail : forall w s, g_single w s -> forall tr, all_trivia tr -> g_single (w ++ tr) s.
Proof.
  fix go 3. intros w s H tr Ht. destruct H as [w t H|w t l w' ts H1 H2].
  - constructor. apply g_term_tail; assumption.
  - rewrite <- app_assoc. cbn [app]. constructor; [exact H1|apply go; assumption].
Qed.
Lemma g_defs_tail : forall w d, g_defs w d -> forall tr, all_trivia tr -> g_defs (w ++ tr) d.
Proof.
  fix go 3. intros w d H tr Ht. destruct H as [w s H|w s l c w' ds H1 H2].
  - constructor. apply g_single_tail; assumption.
  - rewrite <- app_assoc. cbn [app]. constructor; [exact H1|apply go; assumption].
Qed.
Lemma g_empty_factor : forall tr, all_trivia tr -> g_factor tr (Factor 1 (PEmpty nl)).
Proof. intros tr H. replace tr with (tr ++ [] ++ []) by (cbn; rewrite app_nil_r; reflexivity). constructor; [exact H|constructor|constructor]. Qed.
Lemma g_empty_defs : forall tr, all_trivia tr -> exists d, g_defs tr d.
Proof. intros tr H. eexists. constructor. constructor. constructor. apply g_empty_factor. exact H. Qed.

(** ** Unclosed brackets *)
Lemma counts_filter : forall (P : token -> Prop) (p : token -> bool), (forall t, P t <-> p t = true) -> forall ts n, counts P ts n -> n = length (filter p ts).
Proof.
  intros P p HP ts n H. induction H as [|t ts n H _ IH|t ts n H _ IH]; cbn [filter]; [reflexivity| |].
  - apply HP in H. rewrite H. cbn. congruence.
  - destruct (p t) eqn:E; [exfalso; apply H, HP; exact E|exact IH].
Qed.
Lemma filter_counts : forall (P : token -> Prop) (p : token -> bool), (forall t, P t <-> p t = true) -> forall ts, counts P ts (length (filter p ts)).
Proof.
  intros P p HP. induction ts as [|t ts IH]; cbn [filter]; [constructor|]. destruct (p t) eqn:E; [constructor; [apply HP; exact E|exact IH]|]. apply co_no; [|exact IH]. rewrite HP. congruence.
Qed.
Lemma brackets_apart : forall o c, brackets o c -> forall t, o t = true -> c t = false.
Proof. intros o c [] []; cbn; congruence. Qed.
Lemma brackets_kinds : forall o c o' c' t, brackets o c -> brackets o' c' -> c t = true -> c' t = true -> o = o' /\ c = c'.
Proof. intros o c o' c' t [] []; destruct t; cbn; intros; try discriminate; auto. Qed.
Lemma brackets_closing : forall o c t, brackets o c -> c t = true -> is_terminator t = false.
Proof. intros o c t []; destruct t; cbn; intros; try discriminate; auto. Qed.
Definition kind (O C : token -> Prop) (o c : token -> bool) : Prop := (forall t, O t <-> o t = true) /\ (forall t, C t <-> c t = true) /\ brackets o c.
Lemma kind_option : kind (fun x => exists l s, x = TStartOption l s) (fun x => exists l s, x = TEndOption l s) is_start_option is_end_option.
Proof. split; [|split; [|constructor]]; intros []; cbn; split; intros H; try discriminate; try (destruct H as (? & ? & H); discriminate); eauto. Qed.
Lemma kind_repeat : kind (fun x => exists l s, x = TStartRepeat l s) (fun x => exists l s, x = TEndRepeat l s) is_start_repeat is_end_repeat.
Proof. split; [|split; [|constructor]]; intros []; cbn; split; intros H; try discriminate; try (destruct H as (? & ? & H); discriminate); eauto. Qed.
Lemma kind_group : kind (fun x => exists l, x = TStartGroup l) (fun x => exists l, x = TEndGroup l) is_start_group is_end_group.
Proof. split; [|split; [|constructor]]; intros []; cbn; split; intros H; try discriminate; try (destruct H as (? & H); discriminate); eauto. Qed.
Lemma opening_kind : forall t n O C, opening t n O C -> exists o c, kind O C o c /\ o t = true.
Proof. intros t n O C []; eexists _, _; (split; [eauto using kind_option, kind_repeat, kind_group|reflexivity]). Qed.
Lemma kind_opening : forall o c, brackets o c -> exists y n O C, opening y n O C /\ kind O C o c.
Proof.
  intros o c []; [exists (TStartOption nl [])|exists (TStartRepeat nl [])|exists (TStartGroup nl)]; eexists _, _, _; (split; [constructor|]); eauto using kind_option, kind_repeat, kind_group.
Qed.
Lemma find_none : forall o c, (forall t, o t = true -> c t = false) -> forall ts d, find_close o c d ts = None ->
  forall p q, ts = p ++ q -> length (filter c p) <= d + length (filter o p).
Proof.
  intros o c Hoc. induction ts as [|t ts IH]; intros d H p q E.
  - symmetry in E. apply app_eq_nil in E as (-> & _). cbn. lia.
  - destruct p as [|x p]; [cbn; lia|]. cbn [app] in E. injection E as <- E. cbn [find_close] in H.
    assert (K : forall d', match find_close o c d' ts with Some (a, b) => Some (t :: a, b) | None => None end = None -> length (filter c p) <= d' + length (filter o p)).
    { intros d' K. destruct (find_close o c d' ts) as [(a & b)|] eqn:Ef; [discriminate|]. eapply IH; eauto. }
    cbn [filter]. destruct (o t) eqn:Eo.
    + rewrite (Hoc _ Eo). apply K in H. cbn [length]. lia.
    + destruct (c t) eqn:Ec; [|apply K in H; lia]. destruct d as [|d]; [discriminate|]. apply K in H. cbn [length]. lia.
Qed.
Lemma find_some : forall o c, (forall t, o t = true -> c t = false) -> forall ts d sub nx, find_close o c d ts = Some (sub, nx) ->
  length (filter c sub) = d + length (filter o sub) /\ forall p q, sub = p ++ q -> length (filter c p) <= d + length (filter o p).
Proof.
  intros o c Hoc. induction ts as [|t ts IH]; intros d sub nx H; cbn [find_close] in H; [discriminate|].
  assert (K : forall d', match find_close o c d' ts with Some (a, b) => Some (t :: a, b) | None => None end = Some (sub, nx) ->
    exists s, sub = t :: s /\ length (filter c s) = d' + length (filter o s) /\ forall p q, s = p ++ q -> length (filter c p) <= d' + length (filter o p)).
  { intros d' E. destruct (find_close o c d' ts) as [(a & b)|] eqn:Ef; [|discriminate]. injection E as <- <-. exists a. split; [reflexivity|]. eapply IH. exact Ef. }
  destruct (o t) eqn:Eo.
  { destruct (K _ H) as (s & -> & H1 & H2). cbn [filter]. rewrite Eo, (Hoc _ Eo). cbn [length]. split; [lia|]. intros [|x p] q E; [cbn; lia|]. injection E as <- E. cbn [filter]. rewrite Eo, (Hoc _ Eo). apply H2 in E. cbn [length]. lia. }
  destruct (c t) eqn:Ec.
  2: { destruct (K _ H) as (s & -> & H1 & H2). cbn [filter]. rewrite Eo, Ec. split; [lia|]. intros [|x p] q E; [cbn; lia|]. injection E as <- E. cbn [filter]. rewrite Eo, Ec. apply H2 in E. lia. }
  destruct d as [|d]; [injection H as <- <-; cbn; split; [lia|]; intros p q E; symmetry in E; apply app_eq_nil in E as (-> & _); cbn; lia|].
  destruct (K _ H) as (s & -> & H1 & H2). cbn [filter]. rewrite Eo, Ec. cbn [length]. split; [lia|]. intros [|x p] q E; [cbn; lia|]. injection E as <- E. cbn [filter]. rewrite Eo, Ec. apply H2 in E. cbn [length]. lia.
Qed.
(** [ts] goes to the end of the rule, or of a bracket. *)
Definition ends (ts tail : list token) : Prop :=
  (exists x r o c, tail = x :: r /\ brackets o c /\ c x = true /\ existsb is_terminator ts = false /\ forall p q, ts = p ++ q -> length (filter o q) <= length (filter c q)) \/
  (exists ts0 x, ts = ts0 ++ [x] /\ terminator x /\ existsb is_terminator ts0 = false).
Lemma ends_tail : forall x y tail, ends (x ++ y) tail -> y <> [] -> ends y tail.
Proof.
  intros x y tail [(z & r & o & c & -> & Hb & Hz & Ht & H)|(ts0 & z & E & Hz & Ht)] Hy.
  - left. exists z, r, o, c. rewrite existsb_app in Ht. apply orb_false_iff in Ht as (_ & Ht). repeat (split; [auto; fail|]). intros p q ->. apply (H (x ++ p)). assoc.
  - right. destruct (exists_last Hy) as (y0 & w & ->). exists y0, w. rewrite app_assoc in E. apply app_inj_tail in E as (<- & ->). rewrite existsb_app in Ht. apply orb_false_iff in Ht as (_ & Ht). auto.
Qed.
Lemma ends_after : forall x t r tail, ends (x ++ t :: r) tail -> ~ terminator t -> ends r tail.
Proof.
  intros x t r tail H Ht. destruct r as [|y r]; [|apply (ends_tail (x ++ [t])); [|discriminate]; rewrite <- app_assoc; exact H].
  destruct H as [(z & r & o & c & -> & Hb & Hz & _ & H)|(ts0 & z & E & Hz & _)].
  - left. exists z, r, o, c. repeat (split; [auto; fail|]). intros p q E. symmetry in E. apply app_eq_nil in E as (_ & ->). cbn. lia.
  - apply app_inj_tail in E as (_ & ->). contradiction.
Qed.
Lemma no_terminator : forall ts, existsb is_terminator ts = false -> Forall (fun t => ~ terminator t) ts.
Proof.
  induction ts as [|t ts IH]; intros H; constructor; cbn in H; apply orb_false_iff in H as (H1 & H2); auto. intros K. apply is_terminator_spec in K. congruence.
Qed.
Lemma never_closed_at : forall O C o c t r tail, kind O C o c -> o t = true -> ends (t :: r) tail -> find_close o c 0 r = None -> never_closed O C (r ++ tail).
Proof.
  intros O C o c t r tail (HO & HC & Hb) Ht He Hf. pose proof (find_none o c (brackets_apart _ _ Hb) r 0 Hf) as K.
  assert (K' : forall p q i j, r = p ++ q -> counts O p i -> counts C p j -> j <= i).
  { intros p q i j E Hi Hj. apply (counts_filter O o HO) in Hi. apply (counts_filter C c HC) in Hj. subst i j. apply (K p q E). }
  destruct He as [(x & r2 & o' & c' & -> & Hb' & Hx & Hn & H)|(r0 & x & E & Hx & Hn)].
  - exists r, x, r2. split; [reflexivity|]. cbn in Hn. apply orb_false_iff in Hn as (_ & Hn). split; [apply no_terminator; exact Hn|]. split; [exact K'|]. right.
    destruct (kind_opening _ _ Hb') as (y & n & O' & C' & Hop & HO' & HC' & _). exists y, n, O', C'. split; [exact Hop|]. split; [apply HC'; exact Hx|]. split.
    + intros Hc. apply HC in Hc. destruct (brackets_kinds _ _ _ _ _ Hb Hb' Hc Hx) as (-> & ->). specialize (H [] (t :: r) eq_refl). cbn [filter] in H. rewrite Ht, (brackets_apart _ _ Hb' _ Ht) in H.
      specialize (K r [] (eq_sym (app_nil_r r))). cbn [length] in H. lia.
    + intros i j Hi Hj. apply (counts_filter O' o' HO') in Hi. apply (counts_filter C' c' HC') in Hj. subst i j. apply (H [t]). reflexivity.
  - destruct r0 as [|t' r0]; [injection E as -> ->; exfalso; apply is_terminator_spec in Hx; destruct Hb; destruct x; discriminate|]. cbn [app] in E. injection E as <- ->.
    cbn in Hn. apply orb_false_iff in Hn as (_ & Hn). exists r0, x, tail. split; [assoc|]. split; [apply no_terminator; exact Hn|]. split; [|left; exact Hx].
    intros p q i j ->. apply (K' p (q ++ [x])). assoc.
Qed.

(** ** Errors of the recursive descent *)
Definition in_rule (m : msg) : Prop := forall n, m <> MMetaExpected n.
Lemma misfit_left : forall x a t b m, misfit a t b m -> in_rule m -> misfit (x ++ a) t b m.
Proof.
  intros x a t b m H Hm.
  assert (J : forall y, just_before y a -> just_before y (x ++ a)). { intros y (a0 & tr & -> & Ht). exists (x ++ a0), tr. split; [assoc|exact Ht]. }
  destruct H; try (econstructor; eauto; fail). exfalso. eapply Hm. reflexivity.
Qed.
(** How many tokens behind the misfit decide that it is one. *)
Definition decides (c0 : list token) (m : msg) : Prop :=
  match m with MAmbiguousOption | MAmbiguousRepeat => exists l, c0 = [TEndGroup l] | _ => c0 = [] end.
Definition decided (m : msg) : Prop := match m with MNotClosed _ _ => False | _ => True end.
Definition err_at (G Pk : list token -> Prop) (ts tail : list token) (e : error) : Prop :=
  exists a t c0 b, ts = a ++ t :: c0 ++ b /\ e_loc e = tok_loc t /\ in_rule (e_msg e) /\ misfit a t (c0 ++ b ++ tail) (e_msg e) /\
  decides c0 (e_msg e) /\ (decided (e_msg e) -> forall c, ~ Pk (a ++ t :: c0 ++ c)) /\
  exists xs, Forall filler xs /\ forall w, map erase w = padded xs -> G (a ++ w).
Lemma err_left : forall (G G' P P' : list token -> Prop) x ts tail e, err_at G P ts tail e -> (forall w, G w -> G' (x ++ w)) ->
  (forall y z w, ts = y ++ z -> y <> [] -> P' (x ++ y ++ w) -> P (y ++ w)) -> err_at G' P' (x ++ ts) tail e.
Proof.
  intros G G' P P' x ts tail e (a & t & c0 & b & -> & E & Hm & Hf & Hd & HP & xs & Hx & HG) K K'. exists (x ++ a), t, c0, b. split; [assoc|].
  split; [exact E|]. split; [exact Hm|]. split; [apply misfit_left; assumption|]. split; [exact Hd|]. split.
  - intros Hde c Hc. apply (HP Hde c). replace (a ++ t :: c0 ++ c) with ((a ++ t :: c0) ++ c) by assoc. apply (K' (a ++ t :: c0) b); [assoc|intros E'; destruct a; discriminate|].
    replace (x ++ (a ++ t :: c0) ++ c) with ((x ++ a) ++ t :: c0 ++ c) by assoc. exact Hc.
  - exists xs. split; [exact Hx|]. intros w Hw. rewrite <- app_assoc. apply K, HG, Hw.
Qed.
Lemma err_map : forall (G G' P P' : list token -> Prop) ts tail e, err_at G P ts tail e -> (forall w, G w -> G' w) -> (forall w, P' w -> P w) -> err_at G' P' ts tail e.
Proof. intros. apply (err_left G G' P P' [] ts tail e); auto. Qed.
Lemma err_here : forall (G P : list token -> Prop) a t c0 b tail e, e_loc e = tok_loc t -> in_rule (e_msg e) -> misfit a t (c0 ++ b ++ tail) (e_msg e) -> decides c0 (e_msg e) ->
  (decided (e_msg e) -> forall c, ~ P (a ++ t :: c0 ++ c)) -> G a -> err_at G P (a ++ t :: c0 ++ b) tail e.
Proof.
  intros G P a t c0 b tail e E Hm Hf Hd HP HG. exists a, t, c0, b. split; [reflexivity|]. split; [exact E|]. split; [exact Hm|]. split; [exact Hf|]. split; [exact Hd|]. split; [exact HP|]. exists []. split; [constructor|].
  intros w Hw. apply padded_nil in Hw. subst w. rewrite app_nil_r. exact HG.
Qed.
Lemma bind_err : forall A B (r : res A) (k : A -> res B) e, (let? a := r in k a) = Err e -> r = Err e \/ exists a, r = Ok a /\ k a = Err e.
Proof. intros A B [a|x|p|] k e H; cbn in H; try discriminate; [right; eauto|left; injection H as ->; reflexivity]. Qed.
Lemma not_trivia : forall t, triviab t = false -> ~ trivia t.
Proof. intros t H K. apply triviab_spec in K. congruence. Qed.
Lemma not_terminator : forall t, is_terminator t = false -> ~ terminator t.
Proof. intros t H K. apply is_terminator_spec in K. congruence. Qed.

Definition someP {A} (g : list token -> A -> Prop) (w : list token) : Prop := exists x, g w x.
Definition primaryP (w : list token) : Prop := exists tr1 w' tr2 p, w = tr1 ++ w' ++ tr2 /\ all_trivia tr1 /\ g_primary w' p /\ all_trivia tr2.
Definition okL (w : list token) : Prop := exists f all x, read_definition_list f all w = Ok x.
Definition ok2 {A} (rd : nat -> list token -> list token -> res (A * list token)) (w : list token) : Prop := exists f all x nx, rd f all w = Ok (x, nx).
Lemma err_all : forall f,
  (forall all ts tail e, one_end ts -> vt ts -> ends ts tail -> read_definition_list f all ts = Err e -> err_at (someP g_defs) okL ts tail e) /\
  (forall all ts tail e, one_end ts -> vt ts -> ends ts tail -> read_single_definition f all ts = Err e -> err_at (someP g_single) (ok2 read_single_definition) ts tail e) /\
  (forall all ts tail e, one_end ts -> vt ts -> ends ts tail -> read_syntactic_term f all ts = Err e -> err_at (someP g_term) (ok2 read_syntactic_term) ts tail e) /\
  (forall all ts tail e, one_end ts -> vt ts -> ends ts tail -> read_syntactic_factor f all ts = Err e -> err_at (someP g_factor) (ok2 read_syntactic_factor) ts tail e) /\
  (forall all ts tail e, one_end ts -> vt ts -> ends ts tail -> read_syntactic_primary f all ts = Err e -> err_at primaryP (ok2 read_syntactic_primary) ts tail e).
Proof.
  induction f as [|f (IHdl & IHsd & IHtm & IHfa & IHpr)]; [repeat split; intros; discriminate|].
  destruct (sound_all f) as (Sdl & Ssd & Stm & Sfa & Spr). destruct (again_all f) as (Asd & Atm & Afa & Apr).
  split; [|split; [|split; [|split]]].
  - intros all ts tail e Ho Hv He H. cbn [read_definition_list] in H. apply bind_err in H as [H|((sd & next) & Esd & H)].
    + apply (err_map _ _ _ _ _ _ _ (IHsd _ _ _ _ Ho Hv He H)).
      * intros w (s & Hs). exists [s]. constructor. exact Hs.
      * intros w (f' & all' & x & E). destruct f' as [|f']; [discriminate|]. cbn [read_definition_list] in E. apply bind_ok in E as ((sd & nx) & E & _). exists f', all', sd, nx. exact E.
    + destruct (Ssd _ _ _ _ Ho Hv Esd) as (w & -> & Hg & Hn). pose proof (one_end_tail _ _ Ho) as Ho2. apply vt_app in Hv as (_ & Hv2).
      destruct Hn as [->|(t & r & -> & Ht)]; [discriminate|].
      assert (Et : triviab t = false). { destruct Ht as [Ht|(l & c & ->)]; [|reflexivity]. destruct t; try reflexivity; destruct Ht. }
      pose proof (skip_cons t r Et) as Esk. destruct (Asd _ _ _ _ _ _ Esd Esk) as (p & Ep & K). apply app_inv_tail in Ep. subst p.
      rewrite Esk in H. destruct (is_terminator t) eqn:Eterm; [discriminate|].
      destruct Ht as [Ht|(l & c & ->)]; [apply is_terminator_spec in Ht; congruence|]. apply bind_err in H as [H|(ds & _ & H)]; [|discriminate].
      pose proof (IHdl _ _ tail _ (one_end_tail [_] r Ho2) (vt_cons _ _ Hv2) (ends_after _ _ _ _ He (fun x => x)) H) as J.
      replace (w ++ TDefSep l c :: r) with ((w ++ [TDefSep l c]) ++ r) by assoc.
      apply (err_left _ _ _ _ _ _ _ _ J).
      * intros w' (d & Hd). exists (sd :: d). rewrite <- app_assoc. constructor; assumption.
      * intros y z w' _ _ (f' & all' & x & E). destruct f' as [|f']; [discriminate|]. cbn [read_definition_list] in E. apply bind_ok in E as ((sd' & nx) & E1 & E).
        replace ((w ++ [TDefSep l c]) ++ y ++ w') with (w ++ TDefSep l c :: y ++ w') in E1 by assoc. apply K in E1. rewrite E1 in E. cbn [is_terminator] in E. apply bind_ok in E as (ds & E & _). exists f', all', ds. exact E.
  - intros all ts tail e Ho Hv He H. cbn [read_single_definition] in H. apply bind_err in H as [H|((tm & nx) & Etm & H)].
    + apply (err_map _ _ _ _ _ _ _ (IHtm _ _ _ _ Ho Hv He H)).
      * intros w (s & Hs). exists [s]. constructor. exact Hs.
      * intros w (f' & all' & x & nx & E). destruct f' as [|f']; [discriminate|]. cbn [read_single_definition] in E. apply bind_ok in E as ((tm & nx') & E & _). exists f', all', tm, nx'. exact E.
    + destruct (skip_trivia nx) as [|t r] eqn:Es; [discriminate|]. destruct (Atm _ _ _ _ _ _ Etm Es) as (p & Ep & K).
      destruct (Stm _ _ _ _ Ho Hv Etm) as (w & Ew & Hg).
      destruct (skip_split nx) as (tr & En & Htr & Hn). rewrite Es in En, Hn.
      assert (p = w ++ tr) as ->. { rewrite Ew, En, app_assoc in Ep. apply app_inv_tail in Ep. congruence. }
      rewrite Ep in Ho, Hv, He |- *. pose proof (one_end_tail _ _ Ho) as Ho3. apply vt_app in Hv as (_ & Hv3).
      assert (Hbad : {| e_loc := tok_loc t; e_msg := MConcatExpected (tok_name t) |} = e -> is_terminator t = false -> (forall l, t <> TConcat l) -> (forall l c, t <> TDefSep l c) ->
        err_at (someP g_single) (ok2 read_single_definition) ((w ++ tr) ++ t :: r) tail e).
      { intros <- E1 E2 E3. apply (err_here _ _ _ t [] r); [reflexivity|intros n; discriminate| |reflexivity| |].
        - constructor; [apply not_trivia; eauto|apply not_terminator; exact E1|exact E2|exact E3].
        - intros _ c (f' & all' & x & nx' & E). destruct f' as [|f']; [discriminate|]. cbn [read_single_definition] in E. apply bind_ok in E as ((tm' & nx2) & E4 & E). apply K in E4. rewrite E4 in E.
          destruct t; first [discriminate|exact (E2 _ eq_refl)|exact (E3 _ _ eq_refl)].
        - exists [tm]. constructor. apply g_term_tail; assumption. }
      destruct t; cbn [is_terminator] in H; try discriminate; try (apply Hbad; [injection H; auto|reflexivity|discriminate|discriminate]).
      apply bind_err in H as [H|((tms & nx') & _ & H)]; [|discriminate].
      pose proof (IHsd _ _ tail _ (one_end_tail [_] r Ho3) (vt_cons _ _ Hv3) (ends_after _ _ _ _ He (fun x => x)) H) as J.
      replace ((w ++ tr) ++ TConcat l :: r) with (((w ++ tr) ++ [TConcat l]) ++ r) by assoc.
      apply (err_left _ _ _ _ _ _ _ _ J).
      * intros w' (d & Hd). exists (tm :: d). rewrite <- (app_assoc _ [_]). constructor; [apply g_term_tail; assumption|exact Hd].
      * intros y z w' _ _ (f' & all' & x & nx' & E). destruct f' as [|f']; [discriminate|]. cbn [read_single_definition] in E. apply bind_ok in E as ((tm' & nx2) & E1 & E).
        replace (((w ++ tr) ++ [TConcat l]) ++ y ++ w') with ((w ++ tr) ++ TConcat l :: y ++ w') in E1 by assoc. apply K in E1. rewrite E1 in E. apply bind_ok in E as ((ds & nx3) & E & _). exists f', all', ds, nx3. exact E.
  - intros all ts tail e Ho Hv He H. cbn [read_syntactic_term] in H. apply bind_err in H as [H|((fa & nx) & Efa & H)].
    + apply (err_map _ _ _ _ _ _ _ (IHfa _ _ _ _ Ho Hv He H)).
      * intros w (s & Hs). eexists. constructor. exact Hs.
      * intros w (f' & all' & x & nx & E). destruct f' as [|f']; [discriminate|]. cbn [read_syntactic_term] in E. apply bind_ok in E as ((tm & nx') & E & _). exists f', all', tm, nx'. exact E.
    + destruct (skip_trivia nx) as [|t r] eqn:Es; [discriminate|]. destruct (Afa _ _ _ _ _ _ Efa Es) as (p & Ep & K).
      destruct (Sfa _ _ _ _ Ho Hv Efa) as (w & Ew & Hg).
      destruct (skip_split nx) as (tr & En & Htr & Hn). rewrite Es in En, Hn.
      assert (p = w ++ tr) as ->. { rewrite Ew, En, app_assoc in Ep. apply app_inv_tail in Ep. congruence. }
      rewrite Ep in Ho, Hv, He |- *. pose proof (one_end_tail _ _ Ho) as Ho3. apply vt_app in Hv as (_ & Hv3).
      destruct t; try discriminate. apply bind_err in H as [H|((ex & nx') & _ & H)]; [|discriminate].
      pose proof (IHfa _ _ tail _ (one_end_tail [_] r Ho3) (vt_cons _ _ Hv3) (ends_after _ _ _ _ He (fun x => x)) H) as J.
      replace ((w ++ tr) ++ TExcept l :: r) with (((w ++ tr) ++ [TExcept l]) ++ r) by assoc.
      apply (err_left _ _ _ _ _ _ _ _ J).
      * intros w' (d & Hd). eexists. rewrite <- (app_assoc _ [_]). constructor; [apply g_factor_tail; eassumption|exact Hd].
      * intros y z w' _ _ (f' & all' & x & nx' & E). destruct f' as [|f']; [discriminate|]. cbn [read_syntactic_term] in E. apply bind_ok in E as ((tm' & nx2) & E1 & E).
        replace (((w ++ tr) ++ [TExcept l]) ++ y ++ w') with ((w ++ tr) ++ TExcept l :: y ++ w') in E1 by assoc. apply K in E1. rewrite E1 in E. apply bind_ok in E as ((ds & nx3) & E & _). exists f', all', ds, nx3. exact E.
  - intros all ts tail e Ho Hv He H. cbn [read_syntactic_factor] in H.
    destruct (skip_split ts) as (tr & Ets & Htr & Hn). remember (skip_trivia ts) as sk eqn:Es. rewrite Ets in Ho, Hv, He |- *. clear Ets Es.
    pose proof (one_end_tail _ _ Ho) as Ho2. apply vt_app in Hv as (_ & Hv2).
    assert (Hfront : forall y z w, sk = y ++ z -> y <> [] -> skip_trivia (tr ++ y ++ w) = y ++ w).
    { intros [|y0 y] z w E Hy; [contradiction|]. cbn [app] in *. apply skip_head; [exact Htr|]. eapply Hn. exact E. }
    assert (Honce : forall p next, Ok (1%N, sk) = Ok (p, next) -> (let? (x, nx) := read_syntactic_primary f all next in Ok (Factor p x, nx)) = Err e -> sk <> [] -> match sk with TInteger _ _ :: _ => False | _ => True end ->
      err_at (someP g_factor) (ok2 read_syntactic_factor) (tr ++ sk) tail e).
    { intros p next E K Hne Hi. injection E as <- <-. apply bind_err in K as [K|((x & nx) & _ & K)]; [|discriminate].
      apply IHpr with (tail := tail) in K; [|exact Ho2|exact Hv2|exact (ends_tail _ _ _ He Hne)].
      apply (err_left _ _ _ _ _ _ _ _ K).
      - intros w (tr1 & w' & tr2 & x & -> & H1 & H2 & H3). eexists. rewrite app_assoc. constructor; [apply Forall_app; auto|exact H2|exact H3].
      - intros y z w' E Hy (f' & all' & x & nx & E'). destruct f' as [|f']; [discriminate|]. cbn [read_syntactic_factor] in E'. rewrite (Hfront y z w' E Hy) in E'.
        apply bind_ok in E' as ((n & nx') & E1 & E'). apply bind_ok in E' as ((q & nx2) & E2 & _). exists f', all', q, nx2.
        assert (nx' = y ++ w') as ->; [|exact E2]. destruct y as [|y0 y]; [contradiction|]. subst sk. cbn [app] in *. destruct y0; try (injection E1 as <- <-; reflexivity). destruct Hi. }
    apply bind_err in H as [H|((n & next) & E & H)].
    + destruct sk as [|t0 r]; [discriminate|]. destruct t0; try discriminate.
      destruct (parse_u32 s) as [m|] eqn:Em.
      * destruct (skip_split r) as (tr2 & Er & Htr2 & Hn2). destruct (skip_trivia r) as [|t1 r2] eqn:Es2; [discriminate|]. rewrite Er.
        assert (Hbad : {| e_loc := tok_loc t1; e_msg := MRepetitionExpected (tok_name t1) |} = e -> (forall l, t1 <> TRepetition l) ->
          err_at (someP g_factor) (ok2 read_syntactic_factor) (tr ++ TInteger l s :: tr2 ++ t1 :: r2) tail e).
        { intros <- E1. exists (tr ++ TInteger l s :: tr2), t1, [], r2. split; [assoc|]. split; [reflexivity|]. split; [intros n; discriminate|]. split; [|split; [reflexivity|split]].
          - apply (mi_repetition _ l s); [exists tr, tr2; auto|apply not_trivia; eauto|exact E1].
          - intros _ c (f' & all' & x & nx & E'). destruct f' as [|f']; [discriminate|]. cbn [read_syntactic_factor] in E'.
            replace ((tr ++ TInteger l s :: tr2) ++ t1 :: [] ++ c) with (tr ++ TInteger l s :: tr2 ++ t1 :: c) in E' by assoc. rewrite (skip_head tr) in E' by auto. rewrite Em, (skip_head tr2) in E' by eauto.
            destruct t1; first [discriminate|exact (E1 _ eq_refl)].
          - exists [TRepetition nl]. split; [constructor; [constructor|constructor]|]. intros w Hw. apply (padded_last []) in Hw as (w1 & k & y & -> & E1' & Hk & Ey). apply padded_nil in E1'. subst w1.
            destruct y; try discriminate. eexists. apply parse_u32_some in Em as (_ & Hle).
            replace ((tr ++ TInteger l s :: tr2) ++ [] ++ [k; TRepetition l0]) with (tr ++ TInteger l s :: (tr2 ++ [k]) ++ TRepetition l0 :: [] ++ [] ++ []) by assoc.
            apply g_times; [exact Htr|apply Forall_app; split; [exact Htr2|constructor; [exact Hk|constructor]]|constructor|constructor|exact Hle|apply (g_empty nl)]. }
        destruct t1; try (apply Hbad; [injection H; auto|discriminate]). discriminate.
      * injection H as <-. apply (err_here _ _ _ _ [] r); [reflexivity|intros n; discriminate| |reflexivity| |eexists; apply g_empty_factor; exact Htr].
        -- constructor. unfold parse_u32 in Em. rewrite numeral_dec in Em. unfold u32_max in Em. destruct (N.leb_spec (numeral s) 4294967295); [discriminate|]. change (2 ^ 32)%N with 4294967296%N. lia.
        -- intros _ c (f' & all' & x & nx & E'). destruct f' as [|f']; [discriminate|]. cbn [read_syntactic_factor app] in E'. rewrite (skip_head tr), Em in E' by auto. discriminate.
    + destruct sk as [|t0 r]; [injection E as <- <-; apply bind_err in H as [H|((x & nx) & _ & H)]; [destruct f; discriminate|discriminate]|].
      destruct t0; try (apply (Honce _ _ E H); [discriminate|exact I]). clear Honce.
      destruct (parse_u32 s) as [m|] eqn:Em; [|discriminate]. pose proof Em as Em'. apply parse_u32_some in Em' as (-> & Hle).
      destruct (skip_split r) as (tr2 & Er & Htr2 & Hn2). destruct (skip_trivia r) as [|t1 r2] eqn:Es2; [discriminate|].
      destruct t1; try discriminate. injection E as <- <-. rewrite Er in Ho2, Hv2, He |- *.
      apply (one_end_tail [_]) in Ho2. apply one_end_tail in Ho2. apply (one_end_tail [_]) in Ho2.
      apply vt_cons in Hv2. apply vt_app in Hv2 as (_ & Hv2). apply vt_cons in Hv2.
      replace (tr ++ TInteger l s :: tr2 ++ TRepetition l0 :: r2) with ((tr ++ TInteger l s :: tr2) ++ TRepetition l0 :: r2) in He |- * by assoc.
      apply ends_after in He; [|intros x; exact x].
      destruct (skip_split r2) as (tr3 & Er2 & Htr3 & Hn3). pose proof (vt_skip _ Hv2) as Hv3.
      destruct (skip_trivia r2) as [|t2 r3] eqn:Es3; [apply bind_err in H as [H|((x & nx) & _ & H)]; [destruct f; discriminate|discriminate]|].
      rewrite Er2 in Ho2, He |- *. apply one_end_tail in Ho2. apply ends_tail in He; [|discriminate].
      apply bind_err in H as [H|((x & nx) & _ & H)]; [|discriminate]. apply IHpr with (tail := tail) in H; [|exact Ho2|exact Hv3|exact He].
      replace ((tr ++ TInteger l s :: tr2) ++ TRepetition l0 :: tr3 ++ t2 :: r3) with ((tr ++ TInteger l s :: tr2 ++ TRepetition l0 :: tr3) ++ t2 :: r3)
        by assoc.
      apply (err_left _ _ _ _ _ _ _ _ H).
      * intros w (tr4 & w' & tr5 & x & -> & H1 & H2 & H3). eexists.
        replace ((tr ++ TInteger l s :: tr2 ++ TRepetition l0 :: tr3) ++ tr4 ++ w' ++ tr5) with (tr ++ TInteger l s :: tr2 ++ TRepetition l0 :: (tr3 ++ tr4) ++ w' ++ tr5)
          by assoc.
        apply g_times; auto; [apply Forall_app; auto|exact H2].
      * intros y z w' E Hy (f' & all' & x & nx & E'). destruct f' as [|f']; [discriminate|]. cbn [read_syntactic_factor] in E'.
        replace ((tr ++ TInteger l s :: tr2 ++ TRepetition l0 :: tr3) ++ y ++ w') with (tr ++ TInteger l s :: tr2 ++ TRepetition l0 :: tr3 ++ y ++ w') in E' by assoc.
        rewrite (skip_head tr) in E' by auto. rewrite Em, (skip_head tr2) in E' by auto. destruct y as [|y0 y]; [contradiction|]. cbn [app] in E, E'. injection E as <- E.
        rewrite (skip_head tr3) in E' by eauto. cbn [bind] in E'. apply bind_ok in E' as ((q & nx2) & E2 & _). exists f', all', q, nx2. exact E2.
  - intros all ts tail e Ho Hv He H. cbn [read_syntactic_primary] in H.
    destruct (skip_split ts) as (tr & Ets & Htr & Hn). remember (skip_trivia ts) as sk eqn:Es. rewrite Ets in Ho, Hv, He |- *. clear Ets Es.
    pose proof (one_end_tail _ _ Ho) as Ho2. apply vt_app in Hv as (_ & Hv2).
    destruct sk as [|t0 r]; [discriminate|]. specialize (Hn t0 r eq_refl).
    assert (Hemp : primaryP tr). { exists tr, [], [], (PEmpty nl). split; [cbn; rewrite app_nil_r; reflexivity|]. split; [exact Htr|]. split; constructor. }
    assert (Henc : forall o c (O C : token -> Prop) cl n (mk : definition_list -> primary), kind O C o c -> o t0 = true ->
       filler cl -> opening t0 n O C -> n = tok_name t0 -> tok_text t0 = tok_debug t0 ->
       (forall y w d, erase y = cl -> g_defs w d -> exists p, g_primary (t0 :: w ++ [y]) p) ->
       (forall f' all' w x nx, read_syntactic_primary (S f') all' (tr ++ t0 :: w) = Ok (x, nx) -> exists sub nx' d, find_close o c 0 w = Some (sub, nx') /\ read_definition_list f' sub sub = Ok d) ->
       bind (match find_close o c 0 r with
             | Some (sub, nx) => let? d := read_definition_list f sub sub in Ok (d, nx)
             | None => Err {| e_loc := tok_loc t0; e_msg := MNotClosed (tok_name t0) (tok_debug t0) |}
             end) (fun '(d, nx) => Ok (mk d, nx)) = Err e ->
       err_at primaryP (ok2 read_syntactic_primary) (tr ++ t0 :: r) tail e).
    { intros o c O C cl n mk Hk Hopen Hcl Hop En Ed Hmk Hrd E.
      apply bind_err in E as [E|((d & nx) & _ & E)]; [|discriminate]. destruct (find_close o c 0 r) as [(sub & nx)|] eqn:Ef.
      - apply bind_err in E as [E|(d & _ & E)]; [|discriminate]. pose proof Hk as (HO & HC & Hb).
        pose proof (find_some o c (brackets_apart _ _ Hb) _ _ _ _ Ef) as (Hbal & Hpre).
        destruct (close_again _ _ _ _ _ _ Ef) as (tc & -> & Hc & _ & Hag).
        apply (one_end_tail [t0]) in Ho2. apply vt_cons in Hv2. apply vt_app in Hv2 as (Hvs & _). apply one_end_front in Ho2; [|discriminate].
        apply IHdl with (tail := tc :: nx ++ tail) in E; [|left; exact Ho2|exact Hvs|].
        2: { left. exists tc, (nx ++ tail), o, c. split; [reflexivity|]. split; [exact Hb|]. split; [exact Hc|]. split; [exact Ho2|]. intros p q Esub. pose proof (Hpre p q Esub) as Hp.
             rewrite Esub, !filter_app, !app_length in Hbal. lia. }
        destruct E as (a & t & c0 & b & -> & E1 & E2 & E3 & E4 & E5 & xs & Hx & HG). exists (tr ++ t0 :: a), t, c0, (b ++ tc :: nx).
        split; [assoc|]. split; [exact E1|]. split; [exact E2|]. split; [|split; [exact E4|split]].
        + replace (tr ++ t0 :: a) with ((tr ++ [t0]) ++ a) by assoc. replace (c0 ++ (b ++ tc :: nx) ++ tail) with (c0 ++ b ++ tc :: nx ++ tail) by assoc. apply misfit_left; assumption.
        + intros Hde c1 (f' & all' & x & nx1 & E'). destruct f' as [|f']; [discriminate|].
          replace ((tr ++ t0 :: a) ++ t :: c0 ++ c1) with (tr ++ t0 :: (a ++ t :: c0) ++ c1) in E' by assoc. apply Hrd in E' as (sub' & nx2 & d & E6 & E7).
          destruct (Hag (a ++ t :: c0) b c1 sub' nx2 ltac:(assoc) E6) as (y' & ->). apply (E5 Hde y'). replace (a ++ t :: c0 ++ y') with ((a ++ t :: c0) ++ y') by assoc. eexists _, _, _. exact E7.
        + exists (xs ++ [cl]). split; [apply Forall_app; split; [exact Hx|constructor; [exact Hcl|constructor]]|].
          intros w Hw. apply padded_last in Hw as (w1 & k & y & -> & Ew & Hk' & Ey). destruct (HG _ Ew) as (d & Hd).
          apply (fun H => g_defs_tail _ _ H [k]) in Hd; [|constructor; [exact Hk'|constructor]]. destruct (Hmk y _ _ Ey Hd) as (p & Hp).
          exists tr, (t0 :: ((a ++ w1) ++ [k]) ++ [y]), [], p. split; [rewrite app_nil_r; assoc|]. split; [exact Htr|]. split; [exact Hp|constructor].
      - injection E as <-. apply (err_here _ _ _ t0 [] r); [reflexivity|intros m; discriminate| |reflexivity|intros []|exact Hemp]. cbn [e_msg app]. rewrite <- En, <- Ed. apply (mi_open _ t0 n O C); [exact Hop|].
        eapply never_closed_at; [exact Hk|exact Hopen| |exact Ef]. apply (ends_tail tr); [exact He|discriminate]. }
    destruct t0; try discriminate.
    + destruct (str_eqb s [c_lpar; c_slash] && _) eqn:Eq.
      * apply andb_true_iff in Eq as (Eq & Er). apply str_eqb_eq in Eq. subst s. injection H as <-.
        destruct r as [|t1 r]; [discriminate|]. destruct t1; try discriminate. apply (err_here _ _ _ _ [TEndGroup l0] r); [reflexivity|intros m; discriminate|constructor|exists l0; reflexivity| |exact Hemp].
        intros _ c (f' & all' & x & nx & E'). destruct f' as [|f']; [discriminate|]. cbn [read_syntactic_primary app] in E'. rewrite skip_head in E' by auto. cbn in E'. discriminate.
      * revert H. apply Henc with (cl := TEndOption nl [c_rbrk]) (1 := kind_option) (n := of_string "start-option-symbol"); try constructor.
        -- intros y w d Ey Hd. destruct y; try discriminate. eexists. constructor. exact Hd.
        -- intros f' all' w x nx E'. cbn [read_syntactic_primary] in E'. rewrite skip_head in E' by auto. destruct (_ && _) in E'; [discriminate|].
           apply bind_ok in E' as ((d & nx2) & E' & _). destruct (find_close _ _ 0 w) as [[sub nx1]|] eqn:Ef; [|discriminate]. apply bind_ok in E' as (d' & E' & _). eauto.
    + destruct (str_eqb s [c_lpar; c_colon] && _) eqn:Eq.
      * apply andb_true_iff in Eq as (Eq & Er). apply str_eqb_eq in Eq. subst s. injection H as <-.
        destruct r as [|t1 r]; [discriminate|]. destruct t1; try discriminate. apply (err_here _ _ _ _ [TEndGroup l0] r); [reflexivity|intros m; discriminate|constructor|exists l0; reflexivity| |exact Hemp].
        intros _ c (f' & all' & x & nx & E'). destruct f' as [|f']; [discriminate|]. cbn [read_syntactic_primary app] in E'. rewrite skip_head in E' by auto. cbn in E'. discriminate.
      * revert H. apply Henc with (cl := TEndRepeat nl [c_rbrace]) (1 := kind_repeat) (n := of_string "start-repeat-symbol"); try constructor.
        -- intros y w d Ey Hd. destruct y; try discriminate. eexists. constructor. exact Hd.
        -- intros f' all' w x nx E'. cbn [read_syntactic_primary] in E'. rewrite skip_head in E' by auto. destruct (_ && _) in E'; [discriminate|].
           apply bind_ok in E' as ((d & nx2) & E' & _). destruct (find_close _ _ 0 w) as [[sub nx1]|] eqn:Ef; [|discriminate]. apply bind_ok in E' as (d' & E' & _). eauto.
    + revert H. apply Henc with (cl := TEndGroup nl) (1 := kind_group) (n := of_string "start-group-symbol"); try constructor.
      -- intros y w d Ey Hd. destruct y; try discriminate. eexists. constructor. exact Hd.
      -- intros f' all' w x nx E'. cbn [read_syntactic_primary] in E'. rewrite skip_head in E' by auto.
         apply bind_ok in E' as ((d & nx2) & E' & _). destruct (find_close _ _ 0 w) as [[sub nx1]|] eqn:Ef; [|discriminate]. apply bind_ok in E' as (d' & E' & _). eauto.
    + destruct (read_meta_identifier _) as ((id & lo) & next). discriminate.
Qed.

(** ** Errors of rules and of runs *)
Lemma g_ident_meta : forall w l id gaps, g_ident w l id -> all_trivia gaps -> forall x, exists l' s', just_before (TMeta l' s') (x ++ w ++ gaps).
Proof.
  intros w l id gaps H Hg x. apply g_ident_last in H as (w' & l' & s' & ->). exists l', s', (x ++ w'), gaps. split; [assoc|exact Hg].
Qed.
Lemma build_err : forall ts tail e, vt ts -> build_syntax_rule ts = Err e ->
  exists a t c0 b, ts = a ++ t :: c0 ++ b /\ e_loc e = tok_loc t /\ (in_rule (e_msg e) /\ misfit a t (c0 ++ b ++ tail) (e_msg e) \/
    all_trivia a /\ ~ trivia t /\ ~ terminator t /\ (forall l s, t <> TMeta l s) /\ e_msg e = MMetaExpected (tok_name t)) /\
  decides c0 (e_msg e) /\ (decided (e_msg e) -> forall c o, build_syntax_rule (a ++ t :: c0 ++ c) <> Ok o) /\
  exists xs, Forall filler xs /\ forall w, map erase w = padded xs -> exists o, g_run (a ++ w) o.
Proof.
  intros ts tail e Hv H. unfold build_syntax_rule in H.
  destruct (one_final_terminator ts) eqn:Eo; cbn [negb] in H; [|discriminate].
  apply one_final_spec in Eo as (a & t & Ets & Ht & Ha).
  destruct (skip_split ts) as (tr & Esp & Htr & Hn).
  destruct (read_meta_identifier ts) as ((id0 & lo0) & nx0) eqn:Er0. destruct (skip_trivia nx0) as [|t9 r9] eqn:Es9; [discriminate|].
  destruct (meta_again _ _ _ _ _ _ Er0 Es9) as (p & Ep & Hag).
  assert (Hbuild : forall c o, build_syntax_rule (p ++ t9 :: c) = Ok o -> match lo0 with
    | None => is_terminator t9 = true
    | Some _ => is_defining_symbol t9 = true /\ okL c end).
  { intros c o E. unfold build_syntax_rule in E. destruct (one_final_terminator _); cbn [negb] in E; [|discriminate]. destruct (Hag c) as (nx' & E1 & E2). rewrite E1, E2 in E.
    destruct lo0 as [l0|]; [|destruct (is_terminator t9); [reflexivity|discriminate]]. destruct (is_defining_symbol t9); cbn [negb] in E; [|discriminate]. split; [reflexivity|].
    destruct id0; [discriminate|]. apply bind_ok in E as (d & E & _). eexists _, _, _. exact E. }
  destruct (match skip_trivia ts with TMeta _ _ :: _ => true | _ => false end) eqn:Em.
  - destruct (skip_trivia ts) as [|[] r] eqn:Es; try discriminate.
    rewrite <- rmi_skip, Es in Er0. apply vt_skip in Hv as Hv2. rewrite Es in Hv2.
    destruct (rmi_sound l s r Hv2) as (w & gaps & id & next & E & Hid & Hg & Hnn & Hr).
    rewrite Hr in Er0. injection Er0 as <- <- <-. destruct (skip_split next) as (tr2 & En & Htr2 & Hn2). rewrite Es9 in En, Hn2. rename t9 into t1, r9 into r1.
    assert (Hgaps : all_trivia gaps).
    { eapply Forall_impl; [|exact Hg]. intros [] E0; try discriminate; exact I. }
    assert (p = tr ++ w ++ gaps ++ tr2) as ->.
    { rewrite Esp, E, En in Ep. replace (tr ++ w ++ gaps ++ tr2 ++ t1 :: r1) with ((tr ++ w ++ gaps ++ tr2) ++ t1 :: r1) in Ep by assoc. apply app_inv_tail in Ep. congruence. }
    destruct (is_defining_symbol t1) eqn:Ed1; cbn [negb] in H.
    + destruct t1; try discriminate. destruct id as [|c id]; [discriminate|]. apply bind_err in H as [H|(d & _ & H)]; [|discriminate].
      assert (Oe : one_end r1).
      { apply (one_end_tail ((tr ++ w ++ gaps ++ tr2) ++ [TDefining l0])). right. exists a, t. rewrite <- Ets. split; [rewrite Ep; assoc|auto]. }
      assert (Hv3 : vt r1). { rewrite Ep in Hv. apply vt_app in Hv as (_ & Hv). apply vt_cons in Hv. exact Hv. }
      assert (Hends : ends r1 tail). { apply (ends_after (tr ++ w ++ gaps ++ tr2) (TDefining l0)); [|intros K; exact K]. right. exists a, t. rewrite <- Ep. auto. }
      destruct (proj1 (err_all _) _ _ _ _ Oe Hv3 Hends H) as (a1 & t1 & c0 & b1 & -> & El & Hm & Hf & Hde & HP & xs & Hx & HG).
      exists ((tr ++ w ++ gaps ++ tr2) ++ TDefining l0 :: a1), t1, c0, b1. split; [rewrite Ep; assoc|]. split; [exact El|]. split; [left; split; [exact Hm|]|split; [exact Hde|split]].
      * replace ((tr ++ w ++ gaps ++ tr2) ++ TDefining l0 :: a1) with ((tr ++ w ++ gaps ++ tr2 ++ [TDefining l0]) ++ a1) by assoc. apply misfit_left; assumption.
      * intros Hd c' o E'. replace (((tr ++ w ++ gaps ++ tr2) ++ TDefining l0 :: a1) ++ t1 :: c0 ++ c') with ((tr ++ w ++ gaps ++ tr2) ++ TDefining l0 :: a1 ++ t1 :: c0 ++ c') in E' by assoc.
        apply Hbuild in E' as (_ & E'). exact (HP Hd _ E').
      * exists (xs ++ [TTerminator nl c_semi]). split; [apply Forall_app; split; [exact Hx|constructor; [constructor|constructor]]|].
        intros w' Hw. apply padded_last in Hw as (w1 & k & y & -> & Ew' & Hk & Ey). destruct y; try discriminate. destruct (HG _ Ew') as (d & Hd).
        apply (fun H => g_defs_tail _ _ H [k]) in Hd; [|constructor; [exact Hk|constructor]]. eexists.
        replace (((tr ++ w ++ gaps ++ tr2) ++ TDefining l0 :: a1) ++ w1 ++ [k; TTerminator l1 c1]) with (tr ++ w ++ (gaps ++ tr2) ++ TDefining l0 :: ((a1 ++ w1) ++ [k]) ++ [TTerminator l1 c1]) by assoc.
        apply g_rule; [exact Htr|exact Hid|apply Forall_app; auto|exact Hd|exact I].
    + injection H as <-. destruct (g_ident_meta w l id (gaps ++ tr2) Hid ltac:(apply Forall_app; auto) tr) as (l' & s' & Hj).
      exists (tr ++ w ++ gaps ++ tr2), t1, [], r1. split; [exact Ep|]. split; [reflexivity|]. split; [left; split; [intros n; discriminate|]|split; [reflexivity|split]].
      * apply (mi_defining _ l' s'); [exact Hj|apply not_trivia; eauto|]. intros l1 ->. discriminate.
      * intros _ c o E'. apply Hbuild in E' as (E' & _). congruence.
      * exists ([TDefining nl] ++ [TTerminator nl c_semi]). split; [repeat constructor|]. intros w' Hw.
        apply padded_last in Hw as (w1 & k & y & -> & Ew' & Hk & Ey). apply (padded_last []) in Ew' as (w2 & k2 & y2 & -> & Ew' & Hk2 & Ey2). apply padded_nil in Ew'. subst w2.
        destruct y; try discriminate. destruct y2; try discriminate. destruct (g_empty_defs [k] ltac:(repeat constructor; exact Hk)) as (d & Hd). eexists.
        replace ((tr ++ w ++ gaps ++ tr2) ++ ([] ++ [k2; TDefining l1]) ++ [k; TTerminator l0 c]) with (tr ++ w ++ (gaps ++ tr2 ++ [k2]) ++ TDefining l1 :: [k] ++ [TTerminator l0 c]) by assoc.
        apply g_rule; [exact Htr|exact Hid|repeat (apply Forall_app; split; auto); repeat constructor; exact Hk2|exact Hd|exact I].
  - destruct (rmi_none ts) as (id & Hr). { destruct (skip_trivia ts) as [|[] ?]; try exact I; discriminate. }
    rewrite Hr in Er0. injection Er0 as <- <- <-. rewrite (skip_skip ts) in Es9. rewrite Es9 in Esp, Hn. assert (p = tr) as ->. { rewrite Esp in Ep. apply app_inv_tail in Ep. congruence. }
    destruct (is_terminator t9) eqn:Et; [discriminate|]. injection H as <-. exists tr, t9, [], r9. split; [exact Esp|]. split; [reflexivity|]. split; [|split; [reflexivity|split]].
    + right. split; [exact Htr|]. split; [apply not_trivia; eauto|]. split; [apply not_terminator; exact Et|]. split; [|reflexivity]. intros l s ->. rewrite Es9 in Em. discriminate.
    + intros _ c o E'. apply Hbuild in E'. congruence.
    + exists ([] ++ [TTerminator nl c_semi]). split; [repeat constructor|]. intros w' Hw. apply padded_last in Hw as (w1 & k & y & -> & Ew' & Hk & Ey). apply padded_nil in Ew'. subst w1.
      destruct y; try discriminate. exists None. replace (tr ++ [] ++ [k; TTerminator l c]) with ((tr ++ [k]) ++ [TTerminator l c]) by assoc.
      constructor; [apply Forall_app; split; [exact Htr|repeat constructor; exact Hk]|exact I].
Qed.
Lemma g_syntax_app : forall a ra, g_syntax a ra -> forall b rb, g_syntax b rb -> exists r, g_syntax (a ++ b) r.
Proof.
  intros a ra H. induction H as [|w o ts rs Hw _ IH]; intros b rb Hb; [eauto|]. destruct (IH _ _ Hb) as (r & Hr). rewrite <- app_assoc. eexists. constructor; eassumption.
Qed.
Definition complete_run (pre : list token) : Prop := (exists rs, g_syntax pre rs) /\ (pre = [] \/ exists p t, pre = p ++ [t] /\ terminator t).
Lemma complete_begins : forall pre tr, complete_run pre -> all_trivia tr -> rule_begins (pre ++ tr).
Proof.
  intros pre tr (_ & [->|(p & t & -> & Ht)]) Htr; [left; exact Htr|]. right. exists t. split; [exact Ht|]. exists p, tr. split; [assoc|exact Htr].
Qed.
Lemma complete_snoc : forall pre w o, complete_run pre -> g_run w o -> complete_run (pre ++ w).
Proof.
  intros pre w o ((rs & H) & _) Hw. split.
  - eapply g_syntax_app; [exact H|]. rewrite <- (app_nil_r w). constructor; [exact Hw|constructor].
  - right. apply g_run_shape in Hw as (a & t & -> & Ht & _). exists (pre ++ a), t. split; [assoc|exact Ht].
Qed.
Lemma first_terminator : forall ts, existsb is_terminator ts = true -> exists z x y, ts = z ++ x :: y /\ is_terminator x = true /\ existsb is_terminator z = false.
Proof.
  induction ts as [|t ts IH]; intros H; [discriminate|]. cbn in H. destruct (is_terminator t) eqn:E; [exists [], t, ts; auto|].
  destruct (IH H) as (z & x & y & -> & Hx & Hz). exists (t :: z), x, y. cbn. rewrite E. auto.
Qed.
Lemma append_err : forall ts cur c e pre, vt (cur ++ ts) -> complete_run pre -> existsb is_terminator cur = false -> append_loop cur ts = (c, Err e) ->
  exists a t c0 b, cur ++ ts = a ++ t :: c0 ++ b /\ e_loc e = tok_loc t /\ misfit (pre ++ a) t (c0 ++ b) (e_msg e) /\ decides c0 (e_msg e) /\
  (decided (e_msg e) -> forall y cc rs, existsb is_terminator (t :: c0 ++ y) = true -> append_loop [] (a ++ t :: c0 ++ y) <> (cc, Ok rs)) /\
  exists xs, Forall filler xs /\ forall w, map erase w = padded xs -> exists rs, g_syntax ((pre ++ a) ++ w) rs.
Proof.
  induction ts as [|t ts IH]; intros cur c e pre Hv Hpre Hcur H; cbn [append_loop] in H; [discriminate|].
  replace (cur ++ t :: ts) with ((cur ++ [t]) ++ ts) in * by assoc. destruct (is_terminator t) eqn:Et.
  - apply vt_app in Hv as (Hv1 & Hv2). destruct (build_syntax_rule (cur ++ [t])) as [o|e0| |] eqn:Eb; try discriminate.
    + destruct (append_loop [] ts) as [c' [rs'|e'| |]] eqn:Ea; try discriminate. injection H as <- <-.
      pose proof (build_sound _ _ Hv1 Eb) as Hg. destruct (IH [] _ _ (pre ++ cur ++ [t]) Hv2 (complete_snoc _ _ _ Hpre Hg) eq_refl Ea) as (a & x & c0 & b & E & El & Hf & Hd & HP & Hx).
      exists ((cur ++ [t]) ++ a), x, c0, b. cbn [app] in E. split; [rewrite E; assoc|]. split; [exact El|].
      replace (pre ++ (cur ++ [t]) ++ a) with ((pre ++ cur ++ [t]) ++ a) by assoc. split; [exact Hf|]. split; [exact Hd|]. split; [|exact Hx].
      intros Hde y cc rs Hy E'. replace (((cur ++ [t]) ++ a) ++ x :: c0 ++ y) with (cur ++ t :: a ++ x :: c0 ++ y) in E' by assoc.
      rewrite append_run in E' by exact Hcur. cbn [app append_loop] in E'. rewrite Et, Eb in E'. specialize (HP Hde y). destruct (append_loop [] (a ++ x :: c0 ++ y)) as [c2 [rs2| | |]]; try discriminate. exact (HP c2 rs2 Hy eq_refl).
    + injection H as <- <-. destruct (build_err _ ts _ Hv1 Eb) as (a & x & c0 & b & E & El & Hf & Hd & HP & xs & Hx & HG).
      exists a, x, c0, (b ++ ts). split; [rewrite E; assoc|]. split; [exact El|]. split; [|split; [exact Hd|split]].
      * destruct Hf as [(Hm & Hf)|(H1 & H2 & H3 & H4 & ->)]; [apply misfit_left; assumption|]. constructor; auto. apply complete_begins; assumption.
      * intros Hde y cc rs Hy E'.
        assert (Hone : one_end (a ++ x :: c0 ++ b)). { right. exists cur, t. split; [congruence|]. split; [apply is_terminator_spec; exact Et|exact Hcur]. }
        pose proof (one_end_front _ _ Hone ltac:(discriminate)) as Hna.
        destruct (first_terminator _ Hy) as (z & tz & y2 & Ez & Hz & Hnz).
        assert (Hz2 : exists y', z ++ [tz] = x :: c0 ++ y').
        { destruct z as [|z0 z]; cbn [app] in Ez; injection Ez as <- Ez.
          - assert (c0 = []) as ->. { destruct c0 as [|k c0]; [reflexivity|]. apply (one_end_front (a ++ [x]) (k :: c0 ++ b)) in Hone || (replace (a ++ x :: (k :: c0) ++ b) with ((a ++ [x]) ++ (k :: c0 ++ b)) in Hone by assoc; apply one_end_front in Hone); [|discriminate].
              rewrite existsb_app in Hone. apply orb_false_iff in Hone as (_ & Hone). cbn in Hone. rewrite Hz in Hone. discriminate. }
            exists []. reflexivity.
          - unfold decides in Hd. assert (Hc0 : c0 = [] \/ exists l, c0 = [TEndGroup l]) by (destruct (e_msg e0); auto). destruct Hc0 as [->|(l & ->)]; [exists (z ++ [tz]); reflexivity|].
            destruct z as [|z1 z]; cbn [app] in Ez; injection Ez as <- Ez; [discriminate|]. exists (z ++ [tz]). reflexivity. }
        destruct Hz2 as (y' & Hz2). rewrite Ez in E'. rewrite app_assoc, append_run in E' by (rewrite existsb_app, Hna, Hnz; reflexivity). cbn [app append_loop] in E'. rewrite Hz in E'.
        rewrite <- app_assoc, Hz2 in E'. destruct (build_syntax_rule (a ++ x :: c0 ++ y')) as [o| | |] eqn:E2; try discriminate. exact (HP Hde _ _ E2).
      * exists xs. split; [exact Hx|]. intros w Hw. destruct (HG _ Hw) as (o & Ho). rewrite <- app_assoc. apply (complete_snoc _ _ _ Hpre) in Ho. apply Ho.
  - apply (IH (cur ++ [t]) c); auto. rewrite existsb_app, Hcur. cbn. rewrite Et. reflexivity.
Qed.
