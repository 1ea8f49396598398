(** Where the lexer stops: runs of the lexer that fail. *)
From Coq Require Import String List NArith Arith Bool Lia.
From Verif Require Import Base Tokenizer Ast Lex SpecText TextFacts SpecTok TokFacts TokRun SpecLex LexRun SpecGram GramFacts GramText SpecTree SpecFault FaultFacts DescentFacts MisfitFacts.
Import ListNotations.
Open Scope nat_scope.

(** ** Texts behind a cut *)
Definition tame (x : str) : Prop := x = [] \/ hd_error x = Some c_lpar.
Lemma tame_follows : forall t x, valid_tok t -> tame x -> follows t (hd_error x).
Proof.
  intros t x Hv [->|E]; [exact I|]. rewrite E. destruct t; cbn [follows]; try exact I; try discriminate; try (intros; discriminate).
  - repeat split; discriminate.
  - unfold letter, digit. split; lia.
  - unfold digit. lia.
  - unfold gap_char. lia.
Qed.
Lemma cuts_retail : forall l s ts l' v, cuts l s ts l' v -> forall x tsx, tame x -> lexes l' x tsx -> lexes l (flat_map tok_text ts ++ x) (ts ++ tsx).
Proof.
  intros l s ts l' v H. induction H as [l v|l l1 t rest ts l' v Hv Hl Hf Hr H IH]; intros x tsx Hx Hl'; [exact Hl'|].
  cbn [flat_map app]. rewrite <- app_assoc. econstructor; [exact Hv|exact Hl| |exact Hr|apply IH; assumption].
  destruct H as [l0 v|l0 l1' t' rest' ts l' v Hv' _ _ _ _].
  - apply tame_follows; assumption.
  - cbn [flat_map]. rewrite <- app_assoc. pose proof (text_pos t' Hv') as P. destruct (tok_text t') as [|c r]; [cbn in P; lia|]. exact Hf.
Qed.
Lemma cuts_split : forall a l s b l' v, cuts l s (a ++ b) l' v -> exists l1 r, cuts l s a l1 r /\ cuts l1 r b l' v.
Proof.
  induction a as [|t a IH]; intros l s b l' v H; cbn [app] in *; [exists l, s; split; [constructor|exact H]|].
  inversion H as [|l0 l1 t0 rest ts l0' v0 Hv Hl Hf Hr Hc E1 E2 E3 E4]; subst. apply IH in Hc as (l2 & r & H1 & H2). exists l2, r. split; [econstructor; eauto|exact H2].
Qed.
Lemma cuts_valid : forall l s ts l' v, cuts l s ts l' v -> Forall valid_tok ts.
Proof. intros l s ts l' v H. induction H; constructor; assumption. Qed.
Lemma lexes_cuts : forall l s ts, lexes l s ts -> exists ts0 l', ts = ts0 ++ [TEOF l'] /\ cuts l s ts0 l' [].
Proof.
  intros l s ts H. induction H as [l|l l' t rest ts Hv Hl Hf Hr H (ts0 & l0 & -> & IH)]; [exists [], l; split; [reflexivity|constructor]|].
  exists (t :: ts0), l0. split; [reflexivity|]. econstructor; eassumption.
Qed.

(** ** The tokens before an error can be continued *)
Lemma padded_lexes : forall xs, Forall filler xs -> forall l, exists x w l', tame x /\ lexes l x (w ++ [TEOF l']) /\ map erase w = padded xs.
Proof.
  intros xs H. induction H as [|y xs Hy _ IH]; intros l; [exists [], [], l; split; [left; reflexivity|split; [constructor|reflexivity]]|].
  set (k := TComment l []). set (l1 := loc_push_str l (tok_text k)).
  assert (D : exists z, erase z = y /\ tok_loc z = l1 /\ valid_tok z).
  { destruct Hy; [exists (TRepetition l1)|exists (TEndOption l1 [c_rbrk])|exists (TEndRepeat l1 [c_rbrace])|exists (TEndGroup l1)|exists (TTerminator l1 c_semi)|exists (TDefining l1)]; repeat split; cbn; auto. }
  destruct D as (z & Ez & Lz & Vz). destruct (IH (loc_push_str l1 (tok_text z))) as (x & w & l' & Hx & Hl & Ew).
  assert (Vk : valid_tok k).
  { assert (E : read_next l (tok_text k) false = Ok (Some (k, 4))) by reflexivity. apply read_next_sound in E as (? & _ & _ & _ & Hv & _). exact Hv. }
  exists (tok_text k ++ tok_text z ++ x), (k :: z :: w), l'. split; [right; reflexivity|]. split; [|cbn [map padded flat_map app]; rewrite Ez, Ew; reflexivity].
  cbn [app]. econstructor; [exact Vk|reflexivity|destruct (hd_error (tok_text z ++ x)); exact I|apply reaches_push; reflexivity|]. econstructor; [exact Vz|exact Lz|apply tame_follows; assumption|apply reaches_push; reflexivity|exact Hl].
Qed.
Lemma viable_before : forall name s a l v xs, cuts (loc_new name) s a l v -> Forall filler xs -> (forall w, map erase w = padded xs -> exists rs, g_syntax (a ++ w) rs) -> viable name a.
Proof.
  intros name s a l v xs Hc Hx H. destruct (padded_lexes xs Hx l) as (x & w & l' & Ht & Hl & Ew). destruct (H w Ew) as (rs & Hg).
  assert (He : g_syntax [TEOF l'] []). { apply (g_cons [TEOF l'] None [] []); [apply (g_none []); [constructor|exact I]|constructor]. }
  destruct (g_syntax_app _ _ Hg _ _ He) as (rs' & Hg'). exists (flat_map tok_text a ++ x), (w ++ [TEOF l']), rs'. split; [eapply cuts_retail; eassumption|]. rewrite app_assoc. exact Hg'.
Qed.

(** ** Brackets are nested *)
Inductive shape := ShOption | ShRepeat | ShGroup.
Definition shape_eqb (a b : shape) : bool := match a, b with ShOption, ShOption | ShRepeat, ShRepeat | ShGroup, ShGroup => true | _, _ => false end.
Definition opens_of (t : token) : option shape := match t with TStartOption _ _ => Some ShOption | TStartRepeat _ _ => Some ShRepeat | TStartGroup _ => Some ShGroup | _ => None end.
Definition closes_of (t : token) : option shape := match t with TEndOption _ _ => Some ShOption | TEndRepeat _ _ => Some ShRepeat | TEndGroup _ => Some ShGroup | _ => None end.
Fixpoint nest (st : list shape) (ts : list token) : option (list shape) :=
  match ts with
  | [] => Some st
  | t :: r =>
      match opens_of t with
      | Some k => nest (k :: st) r
      | None => match closes_of t with
                | Some k => match st with k' :: st' => if shape_eqb k k' then nest st' r else None | [] => None end
                | None => if is_terminator t then match st with [] => nest [] r | _ => None end else nest st r
                end
      end
  end.
Lemma nest_app : forall a st b, nest st (a ++ b) = match nest st a with Some st' => nest st' b | None => None end.
Proof.
  induction a as [|t a IH]; intros st b; [reflexivity|]. cbn [app nest]. destruct (opens_of t); [apply IH|]. destruct (closes_of t) as [k|].
  - destruct st as [|k' st]; [reflexivity|]. destruct (shape_eqb k k'); [apply IH|reflexivity].
  - destruct (is_terminator t); [|apply IH]. destruct st; [apply IH|reflexivity].
Qed.
Definition level (w : list token) : Prop := forall st, nest st w = Some st.
Lemma level_app : forall a b, level a -> level b -> level (a ++ b).
Proof. intros a b Ha Hb st. rewrite nest_app, Ha. apply Hb. Qed.
Lemma level_trivia : forall tr, all_trivia tr -> level tr.
Proof. intros tr H. induction H as [|t tr Ht _ IH]; intros st; [reflexivity|]. destruct t; try (destruct Ht; fail); apply IH. Qed.
Lemma level_words : forall w, Forall word_or_gap w -> level w.
Proof. intros w H. induction H as [|t tr Ht _ IH]; intros st; [reflexivity|]. destruct t; try (destruct Ht; fail); apply IH. Qed.
Lemma level_all :
  (forall w p, g_primary w p -> level w) /\ (forall w f, g_factor w f -> level w) /\ (forall w t, g_term w t -> level w) /\
  (forall w s, g_single w s -> level w) /\ (forall w d, g_defs w d -> level w).
Proof.
  apply g_all_mut; intros;
    repeat match goal with
    | |- level (_ :: _ ++ [_]) => let st := fresh in intros st; cbn [nest opens_of]; rewrite nest_app; match goal with H : level _ |- _ => rewrite H end; reflexivity
    | |- level (_ ++ _) => apply level_app
    | |- level (?t :: ?w) => match w with [] => fail 1 | _ => apply (level_app [t]) end
    | |- level [_] => intros st; reflexivity
    | |- level [] => intros st; reflexivity
    end; try assumption; try (apply level_trivia; assumption).
  destruct H. apply level_words. constructor; [exact I|assumption].
Qed.
Lemma level_ident : forall w l id, g_ident w l id -> level w.
Proof. intros w l id []. apply level_words. constructor; [exact I|assumption]. Qed.
Lemma nest_run : forall w o, g_run w o -> nest [] w = Some [].
Proof.
  intros w o [tr1 w' l id tr2 l' body d t H1 H2 H3 H4 Ht|tr t H Ht].
  - assert (L : level ((tr1 ++ w' ++ tr2 ++ [TDefining l']) ++ body)).
    { repeat apply level_app; [apply level_trivia; assumption|eapply level_ident; eassumption|apply level_trivia; assumption|intros st; reflexivity|]. apply (proj2 (proj2 (proj2 (proj2 level_all))) _ _ H4). }
    replace (tr1 ++ w' ++ tr2 ++ TDefining l' :: body ++ [t]) with (((tr1 ++ w' ++ tr2 ++ [TDefining l']) ++ body) ++ [t]) by assoc. rewrite nest_app, L. destruct t; try (destruct Ht; fail); reflexivity.
  - rewrite nest_app, (level_trivia tr H). destruct t; try (destruct Ht; fail); reflexivity.
Qed.
Lemma nest_syntax : forall ts rs, g_syntax ts rs -> nest [] ts = Some [].
Proof. intros ts rs H. induction H as [|w o ts rs Hw _ IH]; [reflexivity|]. rewrite nest_app, (nest_run _ _ Hw). exact IH. Qed.

Definition count (k : shape) (st : list shape) : nat := length (filter (shape_eqb k) st).
Definition is_open (k : shape) (t : token) : bool := match opens_of t with Some k' => shape_eqb k k' | None => false end.
Definition is_close (k : shape) (t : token) : bool := match closes_of t with Some k' => shape_eqb k k' | None => false end.
Lemma shape_eqb_eq : forall a b, shape_eqb a b = true <-> a = b.
Proof. intros [] []; cbn; split; intros; congruence. Qed.
Lemma nest_stays : forall k base b ab st, nest (ab ++ k :: base) b = Some st ->
  (forall p q, b = p ++ q -> length (filter (is_close k) p) <= length (filter (is_open k) p) + count k ab) ->
  exists ab', st = ab' ++ k :: base /\ forall j, count j ab' + length (filter (is_close j) b) = count j ab + length (filter (is_open j) b).
Proof.
  intros k base b. induction b as [|t b IH]; intros ab st H Hp.
  - injection H as <-. exists ab. split; [reflexivity|]. intros j. cbn. lia.
  - cbn [nest] in H. unfold is_open, is_close in *. destruct (opens_of t) as [k1|] eqn:Eo.
    + assert (Ec : closes_of t = None) by (destruct t; try discriminate; reflexivity).
      destruct (IH (k1 :: ab) st H) as (ab' & -> & Hc).
      { intros p q ->. specialize (Hp (t :: p) q eq_refl). cbn [filter] in Hp. rewrite Eo, Ec in Hp. unfold count in *. cbn [filter]. destruct (shape_eqb k k1); cbn [length] in *; lia. }
      exists ab'. split; [reflexivity|]. intros j. specialize (Hc j). cbn [filter]. rewrite Eo, Ec. unfold count in *. cbn [filter] in Hc. destruct (shape_eqb j k1); cbn [length] in *; lia.
    + destruct (closes_of t) as [k1|] eqn:Ec.
      * destruct ab as [|k2 ab]; cbn [app] in H.
        -- exfalso. destruct (shape_eqb k1 k) eqn:E; [|discriminate]. apply shape_eqb_eq in E. subst k1. specialize (Hp [t] b eq_refl). cbn [filter] in Hp. rewrite Eo, Ec in Hp.
           rewrite (proj2 (shape_eqb_eq k k) eq_refl) in Hp. cbn in Hp. lia.
        -- destruct (shape_eqb k1 k2) eqn:E; [|discriminate]. apply shape_eqb_eq in E. subst k2.
           destruct (IH ab st H) as (ab' & -> & Hc).
           { intros p q ->. specialize (Hp (t :: p) q eq_refl). cbn [filter] in Hp. rewrite Eo, Ec in Hp. unfold count in *. cbn [filter] in Hp. destruct (shape_eqb k k1); cbn [length] in *; lia. }
           exists ab'. split; [reflexivity|]. intros j. specialize (Hc j). cbn [filter]. rewrite Eo, Ec. unfold count in *. cbn [filter]. destruct (shape_eqb j k1); cbn [length] in *; lia.
      * destruct (is_terminator t); [destruct ab; discriminate|].
        destruct (IH ab st H) as (ab' & -> & Hc).
        { intros p q ->. specialize (Hp (t :: p) q eq_refl). cbn [filter] in Hp. rewrite Eo, Ec in Hp. exact Hp. }
        exists ab'. split; [reflexivity|]. intros j. specialize (Hc j). cbn [filter]. rewrite Eo, Ec. exact Hc.
Qed.
Lemma opening_shape : forall t n O C, opening t n O C -> exists k, opens_of t = Some k /\ (forall x, O x <-> is_open k x = true) /\ (forall x, C x <-> is_close k x = true).
Proof.
  intros t n O C []; [exists ShOption|exists ShRepeat|exists ShGroup]; (split; [reflexivity|]); split; intros x; destruct x; cbn; split; intros H; try discriminate;
    try (destruct H as (? & ? & H); discriminate); try (destruct H as (? & H); discriminate); eauto.
Qed.
Lemma unclosed_stuck : forall a t n o c b1 x y rs, opening t n o c ->
  (forall p q i j, b1 = p ++ q -> counts o p i -> counts c p j -> j <= i) ->
  (terminator x \/ exists y n o' c', opening y n o' c' /\ c' x /\ ~ c x /\ forall i j, counts o' b1 i -> counts c' b1 j -> i <= j) ->
  ~ g_syntax (a ++ t :: b1 ++ x :: y) rs.
Proof.
  intros a t n o c b1 x y rs Ho Hp Hx Hg. destruct (opening_shape _ _ _ _ Ho) as (k & Et & HO & HC). apply nest_syntax in Hg. rewrite nest_app in Hg. destruct (nest [] a) as [base|]; [|discriminate].
  cbn [nest] in Hg. rewrite Et, nest_app in Hg. destruct (nest (k :: base) b1) as [st|] eqn:E; [|discriminate].
  destruct (nest_stays k base b1 [] st E) as (ab & -> & Hc).
  { intros p q Epq. pose proof (Hp p q _ _ Epq (filter_counts _ _ HO p) (filter_counts _ _ HC p)). unfold count. cbn. lia. }
  destruct Hx as [Ht|(z & n' & o' & c' & Ho' & Hx & Hnx & Hle)].
  - destruct x; try (destruct Ht; fail); cbn in Hg; destruct ab; discriminate.
  - destruct (opening_shape _ _ _ _ Ho') as (j & _ & HO' & HC'). specialize (Hle _ _ (filter_counts _ _ HO' b1) (filter_counts _ _ HC' b1)). specialize (Hc j).
    apply HC' in Hx. rewrite HC in Hnx. unfold is_close in Hx, Hnx. destruct (closes_of x) as [j'|] eqn:Ex; [|discriminate]. apply shape_eqb_eq in Hx. subst j'.
    assert (Hop : opens_of x = None) by (destruct x; try discriminate; reflexivity). cbn [nest] in Hg. rewrite Hop, Ex in Hg.
    assert (Hjk : shape_eqb j k = false). { destruct (shape_eqb j k) eqn:Ej; [|reflexivity]. apply shape_eqb_eq in Ej. subst. exfalso. apply Hnx. apply shape_eqb_eq. reflexivity. }
    destruct ab as [|k2 ab]; cbn [app] in Hg; [rewrite Hjk in Hg; discriminate|]. unfold count in Hc. cbn [filter length] in Hc. destruct (shape_eqb j k2) eqn:E2; [|discriminate]. cbn [length] in Hc. lia.
Qed.

(** ** Failing runs *)
Lemma syntax_ends : forall w rs, g_syntax w rs -> w = [] \/ exists p t, w = p ++ [t] /\ terminator t.
Proof.
  intros w rs H. induction H as [|w o ts rs Hw _ IH]; [left; reflexivity|]. right. destruct IH as [->|(p & t & -> & Ht)].
  - apply g_run_shape in Hw as (a & t & -> & Ht & _). exists a, t. split; [apply app_nil_r|exact Ht].
  - exists (w ++ p), t. split; [assoc|exact Ht].
Qed.
Lemma complete_app : forall pre w rs, complete_run pre -> g_syntax w rs -> complete_run (pre ++ w).
Proof.
  intros pre w rs ((rs0 & H0) & He) H. split; [eapply g_syntax_app; eassumption|]. destruct (syntax_ends _ _ H) as [->|(p & t & -> & Ht)]; [rewrite app_nil_r; exact He|].
  right. exists (pre ++ p), t. split; [assoc|exact Ht].
Qed.
Lemma prefix_of : forall (ts : list token) z A r, ts ++ [z] = A ++ r -> r <> [] -> exists r', ts = A ++ r'.
Proof. intros ts z A r E Hr. destruct (exists_last Hr) as (r' & y & ->). rewrite app_assoc in E. apply app_inj_tail in E as (-> & _). eauto. Qed.
Lemma gram_of : forall name s ts l v pre cur new c e, cuts (loc_new name) s ts l v ->
  (ts = pre ++ cur ++ new \/ v = [] /\ ts ++ [TEOF l] = pre ++ cur ++ new) -> complete_run pre -> existsb is_terminator cur = false ->
  append_loop cur new = (c, Err e) -> grammatical name s e.
Proof.
  intros name s ts l v pre cur new c e Hc Hts Hpre Hcur Ha.
  assert (Hvt : vt (pre ++ cur ++ new)).
  { pose proof (valid_vt _ (cuts_valid _ _ _ _ _ Hc)) as V. destruct Hts as [<-|(_ & <-)]; [exact V|]. apply vt_app. split; [exact V|constructor]. }
  apply vt_app in Hvt as (Hvp & Hvt). destruct (append_err _ _ _ _ _ Hvt Hpre Hcur Ha) as (a & t & c0 & b & E & El & Hm & Hd & Hno & xs & Hx & Hg). rewrite E in Hts. clear E.
  assert (Hts' : ts = (pre ++ a) ++ t :: c0 ++ b \/ v = [] /\ ts ++ [TEOF l] = (pre ++ a) ++ t :: c0 ++ b) by (rewrite <- app_assoc; exact Hts). clear Hts.
  assert (Hbefore : viable name (pre ++ a)).
  { assert (K : exists r, ts = (pre ++ a) ++ r). { destruct Hts' as [->|(_ & E)]; [eauto|]. eapply prefix_of; [exact E|discriminate]. }
    destruct K as (r & ->). apply cuts_split in Hc as (l1 & r1 & Hc & _). eapply viable_before; eassumption. }
  assert (Cases : decided (e_msg e) \/ exists n x, e_msg e = MNotClosed n x) by (destruct (e_msg e); cbn; eauto).
  destruct Cases as [D|(n & x & En)].
  - exists ts, l, v, (pre ++ a), t, c0, b. split; [exact Hc|]. split; [exact Hts'|]. split; [exact El|]. split; [exact Hm|]. split; [exact Hbefore|]. split.
    + intros (s' & ts' & rs & Hl & Hs). pose proof (lexes_vt _ _ _ Hl) as V. apply append_complete in Hs as (rs' & Hs & _); [|exact V].
      replace (((pre ++ a) ++ t :: c0) ++ ts') with (pre ++ (a ++ t :: c0 ++ ts')) in Hs by assoc. rewrite append_loop_app in Hs.
      destruct Hpre as ((rsp & Hp) & _). apply append_complete in Hp as (rsp' & Hp & _); [|exact Hvp]. rewrite Hp in Hs.
      destruct (append_loop [] (a ++ t :: c0 ++ ts')) as [cc [rs2| | |]] eqn:E2; try discriminate. refine (Hno D ts' cc rs2 _ E2).
      apply lexes_shape in Hl as (ts0 & l0 & E0 & _). replace (((pre ++ a) ++ t :: c0) ++ ts') with ((pre ++ a) ++ (t :: c0 ++ ts')) in E0 by assoc.
      assert (Hne : t :: c0 ++ ts' <> []) by discriminate. destruct (exists_last Hne) as (q & y & Eq). rewrite Eq in *. rewrite app_assoc in E0. apply app_inj_tail in E0 as (_ & ->).
      rewrite existsb_app. cbn. apply orb_true_r.
    + destruct (e_msg e); cbn in *; auto.
  - rewrite En in Hd. cbn in Hd. subst c0. cbn [app] in *. rewrite En in Hm. inversion Hm as [| | | | | | |t0 n0 o0 c0' b0 Ho Hn E1 E2 E3]; subst.
    destruct Hn as (b1 & x0 & b2 & -> & _ & Hp & Hx0).
    exists ts, l, v, (pre ++ a), t, (b1 ++ [x0]), b2. split; [exact Hc|]. replace ((b1 ++ [x0]) ++ b2) with (b1 ++ x0 :: b2) by assoc. split; [exact Hts'|]. split; [exact El|].
    split; [rewrite En; exact Hm|]. split; [exact Hbefore|]. split; [|right; rewrite En; exact I].
    intros (s' & ts' & rs & _ & Hs). replace (((pre ++ a) ++ t :: b1 ++ [x0]) ++ ts') with ((pre ++ a) ++ t :: b1 ++ x0 :: ts') in Hs by assoc.
    revert Hs. eapply unclosed_stuck; eassumption.
Qed.

Definition explained (name s : str) (max : N) (e : error) : Prop := lexical name s e \/ grammatical name s e \/ too_long name s max e.
Definition underway (name done : str) (lx : lexer) : Prop :=
  exists pre, steps (loc_new name) done (pre ++ lx_tokens lx) (loc lx) (buf lx) /\ good lx /\ complete_run pre /\ existsb is_terminator (lx_tokens lx) = false.
Lemma underway_new : forall name max, underway name [] (lx_new name max).
Proof. intros name max. exists []. split; [constructor|]. split; [reflexivity|]. split; [|reflexivity]. split; [exists []; constructor|left; reflexivity]. Qed.
Lemma call_explained : forall name done lx f lx' r, underway name done lx -> call lx f = (lx', r) ->
  match r with
  | Ok _ => underway name (done ++ frag_text f) lx' /\ lmax lx' = lmax lx
  | Err e => forall rest, explained name ((done ++ frag_text f) ++ rest) (lmax lx) e
  | _ => True
  end.
Proof.
  intros name done lx f lx' r (pre & Hs & Hg & Hpre & Hno) H. rewrite (call_eq lx f Hg) in H. unfold call_rules in H.
  pose proof (steps_app _ _ _ _ _ Hs (frag_text f)) as Hs1. unfold good, loc, buf, lmax in *. destruct lx as [[mx b l] toks]. cbn [lx_tk lx_tokens tk_buf tk_loc tk_max] in *.
  destruct (over_capacity (Tk mx b l) (length (frag_text f))) as [e|] eqn:Eo.
  - unfold tk_push_str in H. rewrite Eo in H. cbn in H. injection H as <- <-. intros rest. right. right. unfold over_capacity in Eo. cbn [tk_buf tk_loc tk_max] in Eo.
    destruct ((0 <? mx)%N && (mx <? N.of_nat (length b) + N.of_nat (length (frag_text f)))%N) eqn:Ec; [|discriminate]. injection Eo as <-. apply andb_true_iff in Ec as (E1 & E2). apply N.ltb_lt in E1, E2.
    eexists _, _, _, _, _. split; [apply steps_cuts; apply steps_app; exact Hs1|]. split; [reflexivity|]. split; [split; assumption|]. rewrite !app_length. lia.
  - rewrite push_tl in H by exact Eo. cbn [tk_loc tk_buf tk_max] in H. destruct (tl l (b ++ frag_text f)) as [l1 r1] eqn:Et. destruct r1 as [[new b']|e|p|].
    + apply tl_ok in Et as (Hs2 & Hst). pose proof (steps_trans _ _ _ _ _ Hs1 _ _ _ Hs2) as Hs3. unfold lx_append in H; cbn [lx_tk lx_tokens] in H.
      destruct (append_loop toks new) as [c rs] eqn:Ea. injection H as <- <-. rewrite <- app_assoc in Hs3. destruct rs as [rs|e| |]; [| |exact I|exact I].
      * cbn [lx_tk lx_tokens tk_buf tk_loc tk_max]. split; [|reflexivity].
        pose proof (append_loop_rest _ _ _ _ Ea Hno) as Hno'. apply append_sound in Ea as (w & E & Hw); [|apply valid_vt; exact (proj2 (proj1 (Forall_app _ _ _) (steps_valid _ _ _ _ _ Hs3)))].
        exists (pre ++ w). cbn [lx_tk lx_tokens]. unfold loc, buf, good. cbn [lx_tk tk_loc tk_buf]. rewrite <- app_assoc, <- E. split; [exact Hs3|]. split; [exact Hst|]. split; [eapply complete_app; eassumption|exact Hno'].
      * intros rest. right. left. eapply gram_of; [apply steps_cuts, steps_app; exact Hs3|left; reflexivity|exact Hpre|exact Hno|exact Ea].
    + unfold lx_append in H. injection H as <- <-. intros rest. left. apply tl_err in Et as (ts & b' & Hs2 & Hr). pose proof (steps_trans _ _ _ _ _ Hs1 _ _ _ Hs2) as Hs3.
      eexists _, _, _. split; [apply steps_cuts, steps_app; exact Hs3|]. apply (read_next_fault _ _ false); [discriminate|]. rewrite read_next_stable; [exact Hr|congruence].
    + injection H as <- <-. exact I.
    + injection H as <- <-. exact I.
Qed.
Lemma feed_explained : forall fs name done lx lx' r, underway name done lx -> feed lx fs = (lx', r) ->
  match r with
  | Ok _ => underway name (done ++ frags_text fs) lx' /\ lmax lx' = lmax lx
  | Err e => explained name (done ++ frags_text fs) (lmax lx) e
  | _ => True
  end.
Proof.
  induction fs as [|f fs IH]; intros name done lx lx' r Hu H; cbn [feed] in H.
  - injection H as <- <-. cbn. rewrite app_nil_r. auto.
  - unfold frags_text. cbn [flat_map]. fold (frags_text fs). rewrite app_assoc. destruct (call lx f) as [lx1 [rs1|e|p|]] eqn:Ec.
    + apply (call_explained _ _ _ _ _ _ Hu) in Ec as (Hu1 & Em). destruct (feed lx1 fs) as [lx2 [rs2|e|p|]] eqn:Ef; injection H as <- <-.
      * apply (IH _ _ _ _ _ Hu1) in Ef. rewrite <- Em. exact Ef.
      * apply (IH _ _ _ _ _ Hu1) in Ef. rewrite <- Em. exact Ef.
      * exact I.
      * exact I.
    + injection H as <- <-. apply (call_explained _ _ _ _ _ _ Hu) in Ec. apply Ec.
    + injection H as <- <-. exact I.
    + injection H as <- <-. exact I.
Qed.
Lemma flush_max : forall m b l, snd (tk_flush (Tk m b l)) = snd (tk_flush (Tk 0 b l)).
Proof.
  intros m b l. unfold tk_flush. cbn [tk_loc tk_buf tk_max]. destruct (read_next l b true) as [[[t n]|]| | |]; try reflexivity; destruct (skipn _ b); reflexivity.
Qed.
Lemma flush_explained : forall name done lx lx' e, underway name done lx -> lx_flush lx = (lx', Err e) -> lexical name done e \/ grammatical name done e.
Proof.
  intros name done lx lx' e (pre & Hs & Hg & Hpre & Hno) H. unfold lx_flush in H. unfold good, loc, buf in *. destruct lx as [[mx b l] toks]. cbn [lx_tk lx_tokens tk_buf tk_loc tk_max] in *.
  pose proof (flush_max mx b l) as Em. rewrite (flushed_tail l b Hg) in Em. destruct (tk_flush (Tk mx b l)) as [tk r]. cbn [snd] in Em. subst r.
  destruct (flushed l b) as [new|] eqn:Ef.
  - cbn [snd] in H. unfold lx_append in H. destruct (append_loop _ new) as [c rs] eqn:Ea. cbn [lx_tokens] in Ea. destruct rs as [rs|e'| |]; try discriminate. cbn in H. injection H as _ <-. right.
    assert (Hl : lexes l b new). { apply lexes_steps. exists [], l, b, new. split; [constructor|]. auto. }
    apply lexes_cuts in Hl as (ts0 & l' & -> & Hc). eapply gram_of; [eapply cuts_app; [apply steps_cuts; exact Hs|exact Hc]|right; split; [reflexivity|]|exact Hpre|exact Hno|exact Ea]. assoc.
  - cbn [snd] in H. destruct (read_next l b true) as [o|e'|p|] eqn:Er; try discriminate. cbn in H. injection H as _ <-. left. eexists _, _, _. split; [apply steps_cuts; exact Hs|].
    apply (read_next_fault _ _ true); auto.
Qed.
Theorem errors_explained : forall name max fs e, lex_fragments name max fs = Err e -> explained name (frags_text fs) max e.
Proof.
  intros name max fs e H. unfold lex_fragments in H. destruct (feed (lx_new name max) fs) as [lx r] eqn:Ef.
  apply (feed_explained _ name []) in Ef; [|apply underway_new]. cbn [app] in Ef. destruct r as [rs|e'|p|]; try discriminate.
  - destruct Ef as (Hu & _). cbn [bind] in H. destruct (lx_flush lx) as [lx' r2] eqn:El. destruct r2 as [o|e'|p|]; try discriminate. injection H as <-.
    apply (flush_explained _ _ _ _ _ Hu) in El. unfold explained. tauto.
  - injection H as <-. exact Ef.
Qed.

(** ** Consequences *)
Lemma fault_inside : forall l v e, fault l v e -> exists u r, v = u ++ r /\ r <> [] /\ reaches l u (e_loc e).
Proof.
  assert (Z : forall l (v : str), v <> [] -> exists u r, v = u ++ r /\ r <> [] /\ reaches l u l). { intros l v Hv. exists [], v. split; [reflexivity|]. split; [exact Hv|]. apply reaches_push. reflexivity. }
  intros l v e H. destruct H; try (apply Z; discriminate). exists (c_lpar :: c_star :: w), (c :: r). split; [reflexivity|]. split; [discriminate|assumption].
Qed.
Lemma explained_inside : forall name s max e, explained name s max e -> exists u r, s = u ++ r /\ reaches (loc_new name) u (e_loc e).
Proof.
  intros name s max e [(ts & l & v & Hc & Hf)|[(ts & l & v & a & t & b1 & b2 & Hc & Hts & El & _)|(ts & l & v & have & add & Hc & -> & _)]].
  - apply cuts_text in Hc as (-> & Hr). apply fault_inside in Hf as (u & r & -> & _ & Hu). exists (flat_map tok_text ts ++ u), r. split; [apply app_assoc|]. apply reaches_push in Hr, Hu. apply reaches_push. rewrite push_str_app, <- Hr. exact Hu.
  - rewrite El. destruct Hts as [->|(-> & E)].
    + apply cuts_at in Hc as (Hr & r & ->). eexists _, _. split; [reflexivity|exact Hr].
    + destruct (exists_last (l := t :: b1 ++ b2) ltac:(discriminate)) as (q & y & Eq). rewrite Eq, app_assoc in E. apply app_inj_tail in E as (-> & <-). destruct q as [|t' q].
      * cbn in Eq. injection Eq as -> _. rewrite app_nil_r in Hc. apply cuts_text in Hc as (-> & Hr). rewrite app_nil_r. exists (flat_map tok_text a), []. split; [symmetry; apply app_nil_r|exact Hr].
      * cbn in Eq. injection Eq as -> _. apply cuts_at in Hc as (Hr & r & ->). eexists _, _. split; [reflexivity|exact Hr].
  - apply cuts_text in Hc as (-> & Hr). eexists _, _. split; [reflexivity|exact Hr].
Qed.
Lemma viable_prefix : forall name p q, viable name (p ++ q) -> viable name p.
Proof. intros name p q (s & ts & rs & Hl & Hg). exists s, (q ++ ts), rs. rewrite app_assoc. auto. Qed.
Lemma lexical_not_ok : forall name s e, lexical name s e -> forall ts, ~ lexes (loc_new name) s ts.
Proof.
  intros name s e (ts & l & v & Hc & Hf) ts' Hl. pose proof (fault_nonempty _ _ _ Hf) as Hn. apply cuts_steps in Hc; [|exact Hn].
  destruct (fault_read _ _ _ Hf) as [(_ & Hr)|(_ & Hst & Hr)].
  - assert (E : tl (loc_new name) s = (l, Err e)) by (apply tl_err; eauto). apply lexes_steps in Hl as (ts1 & l1 & b1 & ts2 & Hs & Hst & _). assert (E' : tl (loc_new name) s = (l1, Ok (ts1, b1))) by (apply tl_ok; auto). congruence.
  - apply lexes_steps in Hl as (ts1 & l1 & b1 & ts2 & Hs & Hst1 & Hfl & _). assert (E : tl (loc_new name) s = (l, Ok (ts, v))) by (apply tl_ok; auto). assert (E' : tl (loc_new name) s = (l1, Ok (ts1, b1))) by (apply tl_ok; auto).
    rewrite E in E'. injection E' as <- <- <-. unfold flushed in Hfl. rewrite Hr in Hfl. destruct v; [contradiction|discriminate].
Qed.
Lemma fault_reported : forall name fs e, lexical name (frags_text fs) e ->
  match lex_fragments name 0 fs with
  | Ok _ => False
  | Err e' => e' = e \/ grammatical name (frags_text fs) e'
  | _ => True
  end.
Proof.
  intros name fs e H. destruct (lex_fragments name 0 fs) as [rs|e'|p|] eqn:E; [| |exact I|exact I].
  - apply frags_ok_iff in E. apply parse_str_ok in E as (ts & c & Hl & _). exact (lexical_not_ok _ _ _ H _ Hl).
  - apply errors_explained in E as [E|[E|(ts & l & v & have & add & _ & _ & L & _)]]; [left; eapply lexical_unique; eassumption|right; exact E|lia].
Qed.
Lemma fault_at_once : forall name s ts l v e, cuts (loc_new name) s ts l v -> fault l v e -> ~ unfinished v e -> parse_str name s = Err e.
Proof.
  intros name s ts l v e Hc Hf Hu. pose proof (fault_nonempty _ _ _ Hf) as Hn. apply cuts_steps in Hc; [|exact Hn]. destruct (fault_read _ _ _ Hf) as [(_ & Hr)|(K & _)]; [|contradiction].
  assert (E : tl (loc_new name) s = (l, Err e)) by (apply tl_err; eauto). unfold parse_str, lx_push_str. rewrite push_tl by (apply unlimited_capacity; reflexivity). cbn [lx_new lx_tk tk_new tk_loc tk_buf tk_max app]. rewrite E. reflexivity.
Qed.
