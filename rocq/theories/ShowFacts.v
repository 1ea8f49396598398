(** The displayed text of a syntax tree, and what it is read back as. *)
From Coq Require Import String List NArith Arith Bool Lia.
From Verif Require Import Base Tokenizer Ast Lex SpecText SpecTok SpecLex SpecGram SpecTree
  TextFacts TokFacts TokRun LexRun GramFacts GramText TreeFacts.
Import ListNotations.
Open Scope nat_scope.

(** ** Numerals *)
Lemma numeral_from_app : forall x y a, numeral_from a (x ++ y) = numeral_from (numeral_from a x) y.
Proof. induction x as [|c x IH]; intros; cbn [app numeral_from]; [reflexivity|apply IH]. Qed.
Lemma dec_digits_spec : forall f n acc, (n < 2 ^ N.of_nat f)%N -> 0 < f ->
  exists ds, dec_digits f n acc = ds ++ acc /\ ds <> [] /\ Forall digit ds /\ numeral ds = n.
Proof.
  induction f as [|f IH]; intros n acc Hn Hf; [lia|]. cbn [dec_digits].
  assert (Hd : digit (48 + n mod 10)%N).
  { assert (Hm : (n mod 10 < 10)%N) by (apply N.mod_lt; discriminate). unfold digit. clear - Hm. generalize dependent (n mod 10)%N. intros m Hm. lia. }
  destruct (N.ltb_spec n 10) as [Hs|Hb].
  - exists [(48 + n mod 10)%N]. repeat split; try discriminate; [constructor; [exact Hd|constructor]|].
    unfold numeral. cbn [numeral_from]. rewrite N.mod_small by lia. lia.
  - rewrite Nnat.Nat2N.inj_succ, N.pow_succ_r' in Hn.
    assert (Hq : (n / 10 < 2 ^ N.of_nat f)%N). { apply N.div_lt_upper_bound; lia. }
    assert (0 < f). { destruct f; [|lia]. cbn in Hn. lia. }
    destruct (IH (n / 10)%N ((48 + n mod 10)%N :: acc) Hq ltac:(lia)) as (ds & -> & Hne & HF & Hv).
    exists (ds ++ [(48 + n mod 10)%N]). rewrite <- app_assoc. repeat split.
    + intros E. destruct ds; discriminate.
    + apply Forall_app. split; [exact HF|constructor; [exact Hd|constructor]].
    + unfold numeral in *. rewrite numeral_from_app, Hv. cbn [numeral_from].
      assert (Hm : (n = 10 * (n / 10) + n mod 10)%N) by (apply N.div_mod; discriminate). clear - Hm.
      revert Hm. generalize (n mod 10)%N, (n / 10)%N. intros. lia.
Qed.
Lemma show_N_spec : forall n, show_N n <> [] /\ Forall digit (show_N n) /\ numeral (show_N n) = n.
Proof.
  intros n. unfold show_N.
  destruct (dec_digits_spec (S (N.to_nat (N.log2 n))) n []) as (ds & E & H).
  - rewrite Nnat.Nat2N.inj_succ, Nnat.N2Nat.id. destruct (N.eq_dec n 0) as [->|Hz]; [reflexivity|].
    apply N.log2_spec. lia.
  - lia.
  - rewrite app_nil_r in E. rewrite E. exact H.
Qed.

(** ** Token runs whose neighbours may touch *)
Notation text := (flat_map tok_text).
Definition nxt (s : str) (o : option char) : option char :=
  match s with [] => o | c :: _ => Some c end.
(** Every token may be followed by what follows it; if [bad], a star may also stand
    before a closing parenthesis. *)
Fixpoint adj (bad : Prop) (w : list token) (o : option char) : Prop :=
  match w with
  | [] => True
  | t :: r =>
      (follows t (nxt (text r) o) \/
       (bad /\ (exists l, t = TRepetition l) /\ nxt (text r) o = Some c_rpar)) /\ adj bad r o
  end.
Lemma nxt_app : forall a b o, nxt (a ++ b) o = nxt a (nxt b o).
Proof. intros [|c a] b o; reflexivity. Qed.
Lemma adj_app : forall bad a b o, adj bad (a ++ b) o <-> adj bad a (nxt (text b) o) /\ adj bad b o.
Proof.
  intros bad a b o. induction a as [|t a IH]; cbn [app adj]; [tauto|].
  rewrite IH, flat_map_app, nxt_app. tauto.
Qed.

Definition delim (c : char) : Prop :=
  c = c_comma \/ c = c_minus \/ c = c_bar \/ c = c_rpar \/ c = c_rbrk \/ c = c_rbrace \/
  c = c_semi \/ c = c_eq.
Definition okstart (s : str) : Prop := forall c r, s = c :: r ->
  c <> c_star /\ c <> c_slash /\ c <> c_colon /\ c <> c_rpar.

Record shown (s : str) (G : Prop) (w : list token) : Prop := Shown {
  sh_valid : Forall valid_tok w;
  sh_text : text w = s;
  sh_start : okstart s;
  sh_adj : forall bad o, delim o -> bad \/ (G /\ (o = c_rpar -> ~ ends_star s)) -> adj bad w (Some o);
  sh_good : forall o, delim o -> adj False w (Some o) -> G }.

Lemma delim_word : forall c, delim c -> ~ letter c /\ ~ digit c.
Proof.
  intros c H. unfold delim, letter, digit in *.
  lia.
Qed.
Lemma shown_iff : forall s G G' w, shown s G w -> (G <-> G') -> shown s G' w.
Proof.
  intros s G G' w [H1 H2 H3 H4 H5] E. constructor; auto.
  - intros bad o Ho H. apply H4; [exact Ho|]. tauto.
  - intros o Ho H. apply E. eapply H5; eassumption.
Qed.
Lemma shown_nil : shown [] True [].
Proof. constructor; cbn; auto. intros c r E. discriminate. Qed.
(** One token that any delimiter may follow. *)
Lemma shown_tok : forall t, valid_tok t -> okstart (tok_text t) ->
  (forall o, delim o -> follows t (Some o)) -> shown (tok_text t) True [t].
Proof.
  intros t Hv Hs Hf. constructor; auto.
  - cbn. apply app_nil_r.
  - intros bad o Ho _. cbn. split; [left; apply Hf; exact Ho|exact I].
Qed.
Lemma ends_star_app : forall a b, ends_star b -> ends_star (a ++ b).
Proof. intros a b (x & ->). exists (a ++ x). rewrite app_assoc. reflexivity. Qed.
Lemma ends_star_cons : forall a b, ends_star b -> ends_star (a :: b).
Proof. intros a b H. apply (ends_star_app [a]). exact H. Qed.

(** A separator between two runs. *)
Definition separator (t : token) (c : char) : Prop :=
  valid_tok t /\ tok_text t = [c] /\ delim c /\ c <> c_rpar /\
  (forall o, follows t o) /\ c <> c_star /\ c <> c_slash /\ c <> c_colon.
Lemma shown_join : forall s1 G1 w1 s2 G2 w2 t c, shown s1 G1 w1 -> shown s2 G2 w2 -> separator t c ->
  shown (s1 ++ c :: s2) (G1 /\ G2) (w1 ++ t :: w2).
Proof.
  intros s1 G1 w1 s2 G2 w2 t c [H1 H2 H3 H4 H5] [K1 K2 K3 K4 K5] (Sv & St & Sd & Sn & Sf & S1 & S2 & S3).
  assert (En : forall o, nxt (text (t :: w2)) o = Some c) by (intros o; cbn [flat_map]; rewrite St; reflexivity).
  constructor.
  - apply Forall_app. split; [exact H1|constructor; assumption].
  - rewrite flat_map_app. cbn [flat_map]. rewrite H2, K2, St. reflexivity.
  - intros d r E. destruct s1 as [|x s1]; cbn in E; injection E as <- E; [auto|]. eapply H3. reflexivity.
  - intros bad o Ho H. rewrite adj_app, En. split.
    + apply H4; [exact Sd|]. destruct H as [H|((H & _) & _)]; [auto|]. right. split; [exact H|]. intros ->. congruence.
    + cbn [adj]. split; [left; apply Sf|]. apply K4; [exact Ho|].
      destruct H as [H|((_ & H) & E)]; [auto|]. right. split; [exact H|]. intros Eo Hs. apply (E Eo).
      apply ends_star_app, ends_star_cons. exact Hs.
  - intros o Ho H. rewrite adj_app, En in H. destruct H as (Ha & Hb). cbn [adj] in Hb. destruct Hb as (_ & Hb).
    split; [exact (H5 _ Sd Ha)|exact (K5 _ Ho Hb)].
Qed.

(** Which valid token ends in a star. *)
Lemma last_app_ne : forall {A} (x y : list A) a, y <> [] -> (exists z, x ++ y = z ++ [a]) -> exists z, y = z ++ [a].
Proof.
  intros A x y a Hy (z & E). destruct (exists_last Hy) as (y' & b & ->). rewrite app_assoc in E.
  apply app_inj_tail in E as (_ & ->). exists y'. reflexivity.
Qed.
Lemma star_token : forall t, valid_tok t -> ends_star (tok_text t) -> exists l, t = TRepetition l.
Proof.
  assert (K : forall (s : str) (P : char -> Prop), (forall c, P c -> c <> c_star) -> Forall P s -> ~ ends_star s).
  { intros s P HP HF (x & ->). apply Forall_app in HF as (_ & HF). inversion HF; subst. apply (HP c_star); auto. }
  assert (L : forall c (s : str) d, d <> c_star -> ~ ends_star (c :: s ++ [d])).
  { intros c s d Hd (x & E). change (c :: s ++ [d]) with ((c :: s) ++ [d]) in E. apply app_inj_tail in E as (_ & E). auto. }
  assert (W : forall c, letter c \/ digit c -> c <> c_star) by (intros c H ->; unfold letter, digit in H; lia).
  assert (S1 : forall d : char, d <> c_star -> ~ ends_star [d]).
  { intros d Hd (x & E). apply (app_inj_tail [] x) in E as (_ & E). auto. }
  assert (S2 : forall c d : char, d <> c_star -> ~ ends_star [c; d]).
  { intros c d Hd. apply (L c [] d Hd). }
  intros t Hv Hs. destruct t; cbn [tok_text valid_tok] in *; eauto; exfalso; revert Hs;
    try (apply S1; discriminate); try contradiction.
  - destruct Hv as [->|[->| ->]]; apply S1; discriminate.
  - destruct Hv as [->| ->]; apply S1; discriminate.
  - destruct Hv as [->| ->]; [apply S1|apply S2]; discriminate.
  - destruct Hv as [->| ->]; [apply S1|apply S2]; discriminate.
  - destruct Hv as [->| ->]; [apply S1|apply S2]; discriminate.
  - destruct Hv as [->| ->]; [apply S1|apply S2]; discriminate.
  - destruct Hv as (c & r & -> & Hc & HF). apply (K _ (fun c => letter c \/ digit c)); [exact W|]. constructor; auto.
  - apply L. destruct Hv as ([->| ->] & _); discriminate.
  - apply (K _ digit); [auto|tauto].
  - intros (x & E). 
    rewrite app_assoc, (app_assoc _ [c_star] [c_rpar] : _ ++ [c_star; c_rpar] = _) in E. apply app_inj_tail in E as (_ & E). discriminate.
  - apply L. discriminate.
  - apply (K _ gap_char); [|tauto]. intros c H ->. unfold gap_char in H. lia.
Qed.
Lemma star_run : forall w, Forall valid_tok w -> ends_star (text w) -> exists a l, w = a ++ [TRepetition l].
Proof.
  intros w Hv Hs. destruct w as [|t0 w0]; [destruct Hs as (x & E); destruct x; discriminate|].
  destruct (exists_last (l := t0 :: w0)) as (a & t & E); [discriminate|]. rewrite E in *. clear E.
  apply Forall_app in Hv as (_ & Hv). inversion Hv; subst.
  rewrite flat_map_app in Hs. cbn [flat_map] in Hs. rewrite app_nil_r in Hs.
  apply last_app_ne in Hs.
  - apply star_token in Hs as (l & ->); [|assumption]. eauto.
  - apply text_pos in H1. intros E. rewrite E in H1. cbn in H1. lia.
Qed.

(** Brackets. *)
Lemma shown_wrap : forall s G w t1 t2 c1 c2, shown s G w ->
  valid_tok t1 -> tok_text t1 = [c1] -> (forall o, follows t1 (Some o)) ->
  valid_tok t2 -> tok_text t2 = [c2] -> (forall o, follows t2 o) ->
  c1 <> c_star -> c1 <> c_slash -> c1 <> c_colon -> c1 <> c_rpar -> delim c2 -> c2 <> c_rpar ->
  shown ([c1] ++ s ++ [c2]) G (t1 :: w ++ [t2]).
Proof.
  intros s G w t1 t2 c1 c2 [H1 H2 H3 H4 H5] V1 T1 F1 V2 T2 F2 N1 N2 N3 N4 D2 R2.
  assert (En : forall o, nxt (text [t2]) o = Some c2) by (intros o; cbn [flat_map]; rewrite T2; reflexivity).
  constructor.
  - constructor; [exact V1|]. apply Forall_app. auto.
  - cbn [flat_map]. rewrite flat_map_app. cbn [flat_map]. rewrite H2, T1, T2. reflexivity.
  - intros d r E. injection E as <- _. auto.
  - intros bad o Ho H. cbn [adj]. rewrite adj_app, En. split.
    + left. destruct (nxt (text (w ++ [t2])) (Some o)) eqn:E; [apply F1|exact I].
    + split; [|split; [left; apply F2|exact I]]. apply H4; [exact D2|]. destruct H as [H|(H & _)]; [auto|].
      right. split; [exact H|]. intros ->. congruence.
  - intros o Ho H. cbn [adj] in H. rewrite adj_app, En in H. destruct H as (_ & H & _). exact (H5 _ D2 H).
Qed.
Lemma shown_group : forall s G w l l', shown s G w ->
  shown ([c_lpar] ++ s ++ [c_rpar]) (G /\ ~ ends_star s) (TStartGroup l :: w ++ [TEndGroup l']).
Proof.
  intros s G w l l' [H1 H2 H3 H4 H5].
  assert (D : delim c_rpar) by (unfold delim; tauto).
  constructor.
  - constructor; [exact I|]. apply Forall_app. split; [exact H1|repeat constructor].
  - cbn [flat_map]. rewrite flat_map_app. cbn [flat_map]. rewrite H2. reflexivity.
  - intros d r E. injection E as <- _. repeat split; discriminate.
  - intros bad o Ho H. cbn [adj]. rewrite adj_app. cbn [flat_map tok_text app nxt]. split; [|split].
    + left. rewrite flat_map_app, nxt_app, H2. cbn [flat_map tok_text app nxt].
      destruct s as [|c r]; cbn [nxt]; [repeat split; discriminate|]. destruct (H3 c r eq_refl) as (? & ? & ? & _). cbn. auto.
    + apply H4; [exact D|]. destruct H as [H|((H & Hn) & _)]; [auto|]. right. auto.
    + cbn [adj]. split; [left; exact I|exact I].
  - intros o Ho H. cbn [adj] in H. rewrite adj_app in H. cbn [flat_map tok_text app nxt] in H. destruct H as (_ & H & _).
    split; [eapply H5; [exact D|exact H]|]. intros Hs. rewrite <- H2 in Hs. apply star_run in Hs as (a & l0 & ->); [|exact H1].
    apply adj_app in H as (_ & H). cbn in H. destruct H as ([H|(H & _)] & _); [apply H; reflexivity|exact H].
Qed.

(** Counts. *)
Lemma digit_start : forall s, Forall digit s -> okstart s.
Proof.
  intros s H c r ->. inversion H; subst. unfold digit in *. lia.
Qed.
Lemma shown_count : forall s G w l l' n, shown s G w ->
  shown ((show_N n ++ [c_star]) ++ s) G (TInteger l (show_N n) :: TRepetition l' :: w).
Proof.
  intros s G w l l' n [H1 H2 H3 H4 H5]. destruct (show_N_spec n) as (Nn & Nd & _).
  constructor.
  - constructor; [split; assumption|]. constructor; [exact I|exact H1].
  - cbn [flat_map tok_text]. rewrite H2, <- app_assoc. reflexivity.
  - pose proof (digit_start _ Nd) as Hs. destruct (show_N n) as [|c r]; [congruence|]. intros d q E. cbn in E. injection E as <- _.
    eapply Hs. reflexivity.
  - intros bad o Ho H. cbn [adj]. cbn [flat_map tok_text app nxt]. split; [left; unfold follows, digit; lia|].
    split.
    + rewrite H2. destruct s as [|c r]; cbn [nxt].
      * destruct (N.eq_dec o c_rpar) as [->|Hn]; [|left; exact Hn].
        destruct H as [H|(_ & H)]; [right; split; [exact H|]; eauto|]. exfalso. apply (H eq_refl). exists (show_N n).
        rewrite app_nil_r. reflexivity.
      * left. destruct (H3 c r eq_refl) as (_ & _ & _ & ?). assumption.
    + apply H4; [exact Ho|]. destruct H as [H|(H & E)]; [auto|]. right. split; [exact H|]. intros Eo Hs. apply (E Eo).
      apply ends_star_app. exact Hs.
  - intros o Ho H. cbn [adj] in H. destruct H as (_ & _ & H). exact (H5 _ Ho H).
Qed.

(** Names. *)
Fixpoint more_words (l : location) (ws : list str) : list token :=
  match ws with [] => [] | w :: r => TGap l [32%N] :: TMeta l w :: more_words l r end.
Definition name_tokens (l : location) (ws : list str) : list token :=
  match ws with [] => [] | w :: r => TMeta l w :: more_words l r end.
Lemma more_words_text : forall l ws w, w ++ text (more_words l ws) = unwords (w :: ws).
Proof.
  intros l. induction ws as [|x ws IH]; intros w; cbn [more_words flat_map tok_text]; [apply app_nil_r|].
  change (unwords (w :: x :: ws)) with (w ++ 32%N :: unwords (x :: ws)). rewrite <- IH. reflexivity.
Qed.
Lemma name_shown : forall l id, name_ok id -> exists w, g_ident w l id /\ shown id True w.
Proof.
  intros l id (ws & Hne & HF & ->). destruct ws as [|w ws]; [congruence|]. inversion HF; subst.
  exists (name_tokens l (w :: ws)). cbn [name_tokens].
  assert (Et : text (TMeta l w :: more_words l ws) = unwords (w :: ws)) by (cbn [flat_map tok_text]; apply more_words_text).
  assert (Hv : forall ws, Forall word ws -> Forall valid_tok (more_words l ws)).
  { clear. intros ws H. induction H as [|x ws Hx _ IH]; cbn; constructor; [|constructor; assumption].
    split; [discriminate|]. repeat constructor. }
  assert (Hw : forall ws, Forall word_or_gap (more_words l ws)).
  { clear. induction ws; cbn; repeat constructor; assumption. }
  assert (Hl : forall ws, more_words l ws = [] \/ exists w' l' s', more_words l ws = w' ++ [TMeta l' s']).
  { clear. induction ws as [|x ws [IH|(w' & l' & s' & IH)]]; cbn; [auto| |]; right; rewrite IH.
    - exists [TGap l [32%N]], l, x. reflexivity.
    - exists (TGap l [32%N] :: TMeta l x :: w'), l', s'. reflexivity. }
  split.
  - constructor; [apply Hw|apply Hl|]. rewrite Et. apply unwords_words. eapply Forall_impl; [|exact HF].
    intros a Ha. apply word_text. exact Ha.
  - constructor.
    + constructor; [exact H1|apply Hv; exact H2].
    + exact Et.
    + destruct H1 as (c & r & -> & Hc & _). intros d q E.
      assert (d = c) as -> by (destruct ws; cbn in E; injection E; auto).
      unfold letter in *. lia.
    + intros bad o Ho _.
      assert (K : forall ws, Forall word ws -> adj bad (more_words l ws) (Some o) /\
                  forall x, follows (TMeta l x) (nxt (text (more_words l ws)) (Some o))).
      { clear - Ho. intros ws H. induction H as [|x ws Hx _ (IH1 & IH2)].
        - split; [exact I|]. intros x. cbn. apply delim_word. exact Ho.
        - split.
          + cbn [more_words adj]. split; [|split; [left; apply IH2|exact IH1]]. left.
            destruct Hx as (c & r & -> & Hc & _). cbn. apply wordish_not_gap. left. exact Hc.
          + intros y. cbn. unfold letter, digit. lia. }
      destruct (K ws H2) as (Ka & Kb). cbn [adj]. split; [left; apply Kb|exact Ka].
    + auto.
Qed.

(** ** Trees *)
Scheme wf_primary_mut := Minimality for wf_primary Sort Prop
  with wf_factor_mut := Minimality for wf_factor Sort Prop
  with wf_term_mut := Minimality for wf_term Sort Prop
  with wf_single_mut := Minimality for wf_single Sort Prop
  with wf_defs_mut := Minimality for wf_defs Sort Prop.
Combined Scheme wf_all_mut from wf_primary_mut, wf_factor_mut, wf_term_mut, wf_single_mut, wf_defs_mut.

Lemma sep_comma : forall l, separator (TConcat l) c_comma.
Proof. intros l. unfold separator, delim. repeat split; try discriminate; auto. intros [c|]; exact I. Qed.
Lemma sep_minus : forall l, separator (TExcept l) c_minus.
Proof. intros l. unfold separator, delim. repeat split; try discriminate; auto. intros [c|]; exact I. Qed.
Lemma sep_bar : forall l, separator (TDefSep l c_bar) c_bar.
Proof.
  intros l. unfold separator, delim. repeat split; try discriminate; auto; [left; reflexivity|].
  intros [c|]; [intros E; discriminate|exact I].
Qed.
Lemma sep_eq : forall l, separator (TDefining l) c_eq.
Proof.
  intros l. unfold separator, delim. repeat split; try discriminate; auto; [|intros [c|]; exact I].
  repeat (try (left; reflexivity); right). reflexivity.
Qed.

Definition nol : location := Loc [] 0 0.
Lemma all_shown :
  (forall p, wf_primary p -> exists w, g_primary w p /\ shown (show_primary p) (group_ok p) w) /\
  (forall f, wf_factor f -> exists w, g_factor w f /\ shown (show_factor f) (group_ok (f_prim f)) w) /\
  (forall t, wf_term t -> exists w, g_term w t /\ shown (show_term t) (group_ok_term t) w) /\
  (forall s, wf_single s -> exists w, g_single w s /\ shown (show_single s) (group_ok_single s) w) /\
  (forall d, wf_defs d -> exists w, g_defs w d /\ shown (show_defs d) (group_ok_defs d) w).
Proof.
  apply wf_all_mut.
  - intros l d _ (w & Hg & Hs). exists (TStartOption l [c_lbrk] :: w ++ [TEndOption nol [c_rbrk]]). split; [constructor; exact Hg|].
    apply (shown_iff _ (group_ok_defs d)).
    + apply (shown_wrap (show_defs d) _ _ _ _ c_lbrk c_rbrk Hs); cbn; auto; try discriminate.
      * intros [o|]; exact I.
      * unfold delim. tauto.
    + split; [constructor; assumption|]. intros H. inversion H; assumption.
  - intros l d _ (w & Hg & Hs). exists (TStartRepeat l [c_lbrace] :: w ++ [TEndRepeat nol [c_rbrace]]). split; [constructor; exact Hg|].
    apply (shown_iff _ (group_ok_defs d)).
    + apply (shown_wrap (show_defs d) _ _ _ _ c_lbrace c_rbrace Hs); cbn; auto; try discriminate.
      * intros [o|]; exact I.
      * unfold delim. tauto.
    + split; [constructor; assumption|]. intros H. inversion H; assumption.
  - intros l d _ (w & Hg & Hs). exists (TStartGroup l :: w ++ [TEndGroup nol]). split; [constructor; exact Hg|].
    apply (shown_iff _ (group_ok_defs d /\ ~ ends_star (show_defs d))).
    + exact (shown_group (show_defs d) _ _ l nol Hs).
    + split; [intros (? & ?); constructor; assumption|]. intros H. inversion H; auto.
  - intros l id Hn. destruct (name_shown l id Hn) as (w & Hg & Hs). exists w. split; [constructor; exact Hg|].
    eapply shown_iff; [exact Hs|]. split; [constructor|auto].
  - intros l s Hne HF Hq. set (q := if negb (has_char c_squote s) then c_squote else c_dquote).
    exists [TTerminal l s q]. split; [constructor|].
    assert (Hv : valid_tok (TTerminal l s q)).
    { cbn. unfold q, has_char. destruct (existsb (N.eqb c_squote) s) eqn:E; cbn [negb]; repeat split; auto.
      - apply existsb_exists in E as (c & Hc & E). apply N.eqb_eq in E. subst c. tauto.
      - intros H. assert (existsb (N.eqb c_squote) s = true); [|congruence].
        apply existsb_exists. exists c_squote. split; [exact H|reflexivity]. }
    eapply shown_iff; [apply (shown_tok (TTerminal l s q)); [exact Hv| |]|split; [constructor|auto]].
    + intros c r E. cbn in E. injection E as <- _. unfold q. destruct (has_char c_squote s); repeat split; discriminate.
    + intros o _. exact I.
  - intros l s HF. exists [TSpecial l s]. split; [constructor|].
    eapply shown_iff; [apply (shown_tok (TSpecial l s)); [exact HF| |]|split; [constructor|auto]].
    + intros c r E. cbn in E. injection E as <- _. repeat split; discriminate.
    + intros o _. exact I.
  - intros l. exists []. split; [constructor|]. eapply shown_iff; [exact shown_nil|]. split; [constructor|auto].
  - intros n p Hn _ (w & Hg & Hs). unfold show_factor. cbn [f_rep f_prim]. destruct (N.eqb_spec n 1) as [->|H1].
    + exists w. split; [|exact Hs]. pose proof (g_once [] w [] p ltac:(constructor) Hg ltac:(constructor)) as G.
      cbn in G. rewrite app_nil_r in G. exact G.
    + exists (TInteger nol (show_N n) :: TRepetition nol :: w). split; [|apply shown_count; exact Hs].
      destruct (show_N_spec n) as (_ & _ & En).
      pose proof (g_times [] nol (show_N n) [] nol [] w [] p ltac:(constructor) ltac:(constructor) ltac:(constructor)
        ltac:(constructor)) as G. rewrite En in G. specialize (G Hn Hg).
      cbn in G. rewrite app_nil_r in G. exact G.
  - intros [n p] _ (w & Hg & Hs). exists w. split; [constructor; exact Hg|].
    unfold show_term. cbn [t_factor t_exc]. rewrite app_nil_r. eapply shown_iff; [exact Hs|]. cbn [f_prim].
    split; [constructor; assumption|]. intros H. inversion H; assumption.
  - intros [n p] [m q] _ (w & Hg & Hs) _ (w' & Hg' & Hs'). exists (w ++ TExcept nol :: w'). split; [constructor; assumption|].
    unfold show_term. cbn [t_factor t_exc]. eapply shown_iff; [exact (shown_join _ _ _ _ _ _ _ _ Hs Hs' (sep_minus nol))|].
    cbn [f_prim]. split; [intros (? & ?); constructor; assumption|]. intros H. inversion H; auto.
  - intros t _ (w & Hg & Hs). exists w. split; [constructor; exact Hg|]. cbn. eapply shown_iff; [exact Hs|].
    split; [intros; constructor; [assumption|constructor]|]. intros H. inversion H; auto.
  - intros t ts _ (w & Hg & Hs) Hts (w' & Hg' & Hs'). exists (w ++ TConcat nol :: w'). split; [constructor; assumption|].
    assert (E : show_single (t :: ts) = show_term t ++ c_comma :: show_single ts).
    { unfold show_single. destruct ts; [inversion Hts|reflexivity]. }
    rewrite E. eapply shown_iff; [exact (shown_join _ _ _ _ _ _ _ _ Hs Hs' (sep_comma nol))|].
    split; [intros (? & ?); constructor; assumption|]. intros H. inversion H; auto.
  - intros t _ (w & Hg & Hs). exists w. split; [constructor; exact Hg|]. cbn. eapply shown_iff; [exact Hs|].
    split; [intros; constructor; [assumption|constructor]|]. intros H. inversion H; auto.
  - intros t ts _ (w & Hg & Hs) Hts (w' & Hg' & Hs'). exists (w ++ TDefSep nol c_bar :: w'). split; [constructor; assumption|].
    assert (E : show_defs (t :: ts) = show_single t ++ c_bar :: show_defs ts).
    { unfold show_defs. destruct ts; [inversion Hts|reflexivity]. }
    rewrite E. eapply shown_iff; [exact (shown_join _ _ _ _ _ _ _ _ Hs Hs' (sep_bar nol))|].
    split; [intros (? & ?); constructor; assumption|]. intros H. inversion H; auto.
Qed.

(** ** Rules *)
Lemma rule_shown : forall r, wf_rule r -> exists w, g_run w (Some r) /\ Forall valid_tok w /\ text w = show_rule r /\
  (forall bad o, bad \/ group_ok_rule r -> adj bad w o) /\
  (forall o, adj False w o -> group_ok_rule r).
Proof.
  intros [l id d] (Hn & Hd). cbn [r_id r_defs] in *.
  destruct (name_shown l id Hn) as (wi & Gi & Si).
  destruct (proj2 (proj2 (proj2 (proj2 all_shown))) d Hd) as (wd & Gd & Sd).
  pose proof (shown_join _ _ _ _ _ _ _ _ Si Sd (sep_eq nol)) as S.
  set (T := TTerminator nol c_semi). set (w := wi ++ TDefining nol :: wd) in *.
  exists (w ++ [T]). split; [|split; [|split; [|split]]].
  - unfold w. rewrite <- app_assoc. cbn [app].
    exact (g_rule [] wi l id [] nol wd d T ltac:(constructor) Gi ltac:(constructor) Gd I).
  - apply Forall_app. split; [apply (sh_valid _ _ _ S)|]. constructor; [left; reflexivity|constructor].
  - rewrite flat_map_app, (sh_text _ _ _ S). unfold show_rule. cbn. rewrite <- !app_assoc. reflexivity.
  - intros bad o H. apply adj_app. split.
    + cbn. apply (sh_adj _ _ _ S); [unfold delim; tauto|]. destruct H as [H|H]; [auto|right]. split; [split; [exact I|exact H]|].
      intros E. discriminate.
    + cbn. split; [left; destruct o; exact I|exact I].
  - intros o H. apply adj_app in H as (H & _). cbn in H. apply (sh_good _ _ _ S) in H; [exact (proj2 H)|unfold delim; tauto].
Qed.
Lemma rules_shown : forall rs, Forall wf_rule rs -> exists w, g_syntax (w ++ [TEOF nol]) rs /\ Forall valid_tok w /\
  text w = show_rules rs /\
  (forall bad, bad \/ Forall group_ok_rule rs -> adj bad w None) /\
  (adj False w None -> Forall group_ok_rule rs).
Proof.
  intros rs H. induction H as [|r rs Hr _ (w & Hg & Hv & Ht & Ha & Hb)].
  - exists []. repeat split; try constructor.
    exact (g_cons [TEOF nol] None [] [] (g_none [] (TEOF nol) (Forall_nil _) I) g_end).
  - destruct (rule_shown r Hr) as (wr & Gr & Vr & Tr & Ar & Br). exists (wr ++ w). split; [|split; [|split; [|split]]].
    + rewrite <- app_assoc. exact (g_cons _ _ _ _ Gr Hg).
    + apply Forall_app. auto.
    + rewrite flat_map_app, Tr, Ht. reflexivity.
    + intros bad H. apply adj_app. split; [apply Ar|apply Ha]; destruct H as [H|H]; auto; inversion H; auto.
    + intros H. apply adj_app in H as (H1 & H2). constructor; eauto.
Qed.

(** ** Lexing *)
Definition relocate (l : location) (t : token) : token :=
  match t with
  | TRepetition _ => TRepetition l | TExcept _ => TExcept l | TConcat _ => TConcat l
  | TDefSep _ c => TDefSep l c | TDefining _ => TDefining l | TTerminator _ c => TTerminator l c
  | TStartOption _ s => TStartOption l s | TEndOption _ s => TEndOption l s
  | TStartRepeat _ s => TStartRepeat l s | TEndRepeat _ s => TEndRepeat l s
  | TStartGroup _ => TStartGroup l | TEndGroup _ => TEndGroup l | TEOF _ => TEOF l
  | TMeta _ s => TMeta l s | TTerminal _ s q => TTerminal l s q | TInteger _ s => TInteger l s
  | TComment _ s => TComment l s | TSpecial _ s => TSpecial l s | TGap _ s => TGap l s
  end.
Lemma relocate_spec : forall l t, tok_loc (relocate l t) = l /\ tok_text (relocate l t) = tok_text t /\
  (valid_tok t -> valid_tok (relocate l t)) /\ (forall o, follows t o -> follows (relocate l t) o) /\
  erase (relocate l t) = erase t.
Proof. intros l t. destruct t; (split; [|split; [|split; [|split]]]); try reflexivity; try (intros H; exact H); intros [?|] H; exact H. Qed.
Lemma nxt_hd : forall s, nxt s None = hd_error s.
Proof. destruct s; reflexivity. Qed.
Lemma adj_lexes : forall w l, Forall valid_tok w -> adj False w None ->
  exists ts l', lexes l (text w) (ts ++ [TEOF l']) /\ map erase ts = map erase w.
Proof.
  induction w as [|t w IH]; intros l Hv Ha; [exists [], l; split; [constructor|reflexivity]|].
  inversion Hv; subst. cbn [adj] in Ha. destruct Ha as ([Hf|(F & _)] & Ha); [|contradiction].
  destruct (relocate_spec l t) as (R1 & R2 & R3 & R4 & R5).
  destruct (IH (loc_push_str l (tok_text t)) H2 Ha) as (ts & l' & Hl & He).
  exists (relocate l t :: ts), l'. split; [|cbn; rewrite R5, He; reflexivity].
  cbn [flat_map app]. rewrite <- R2. eapply lexes_tok; [auto|exact R1| |rewrite R2; apply reaches_push; reflexivity|exact Hl].
  apply R4. rewrite <- nxt_hd. exact Hf.
Qed.
Lemma adj_split : forall w o, adj True w o -> adj False w o \/
  exists a l b, w = a ++ TRepetition l :: b /\ adj False a (Some c_star) /\ nxt (text b) o = Some c_rpar.
Proof.
  induction w as [|t w IH]; intros o H; [left; exact I|]. cbn [adj] in H. destruct H as ([Hf|(_ & (l & ->) & E)] & H).
  - destruct (IH o H) as [K|(a & l & b & -> & Ka & Kb)].
    + left. cbn [adj]. auto.
    + right. exists (t :: a), l, b. split; [reflexivity|]. split; [|exact Kb]. cbn [adj]. split; [|exact Ka].
      left. rewrite flat_map_app, nxt_app in Hf. exact Hf.
  - right. exists [], l, w. cbn [adj]. auto.
Qed.
Lemma adj_stars : forall a l rest, Forall valid_tok a -> adj False a (Some c_star) ->
  exists ts l', steps l (text a ++ c_star :: rest) ts l' (c_star :: rest).
Proof.
  induction a as [|t a IH]; intros l rest Hv Ha; [exists [], l; constructor|].
  inversion Hv; subst. cbn [adj] in Ha. destruct Ha as ([Hf|(F & _)] & Ha); [|contradiction].
  destruct (relocate_spec l t) as (R1 & R2 & R3 & R4 & R5).
  destruct (IH (loc_push_str l (tok_text t)) rest H2 Ha) as (ts & l' & Hs).
  exists (relocate l t :: ts), l'. cbn [flat_map]. rewrite <- app_assoc.
  destruct (read_next_complete l (relocate l t) (text a ++ c_star :: rest)) as [E|(E & _)]; auto.
  - apply R4. rewrite <- nxt_hd, nxt_app. exact Hf.
  - rewrite R2 in E. econstructor; [exact E|]. rewrite firstn_app, Nat.sub_diag, firstn_O, app_nil_r, firstn_all.
    rewrite skipn_app, Nat.sub_diag, skipn_all. exact Hs.
  - destruct (text a); discriminate.
Qed.
Lemma star_paren_fails : forall l a rest ts, Forall valid_tok a -> adj False a (Some c_star) ->
  ~ lexes l (text a ++ c_star :: c_rpar :: rest) ts.
Proof.
  intros l a rest ts Hv Ha H. destruct (adj_stars a l (c_rpar :: rest) Hv Ha) as (ts1 & l1 & Hs).
  apply lexes_steps in H as (ts2 & l2 & b2 & ts3 & Hs2 & Hst & _).
  assert (Er : exists e, read_next l1 (c_star :: c_rpar :: rest) false = Err e) by (eexists; reflexivity).
  destruct Er as (e & Er).
  destruct (steps_det _ _ _ _ _ Hs ltac:(congruence) _ _ _ Hs2 ltac:(unfold stuck in Hst; congruence)) as (_ & -> & <-).
  unfold stuck in Hst. congruence.
Qed.

(** ** The round trip *)
Lemma show_parse : forall name rs, Forall wf_rule rs -> Forall group_ok_rule rs ->
  exists rs', parse_str name (show_rules rs) = Ok rs' /\ Forall2 eq_but_loc rs' rs.
Proof.
  intros name rs Hw Hg. destruct (rules_shown rs Hw) as (w & G & V & T & A & _).
  destruct (adj_lexes w (loc_new name) V (A False (or_intror Hg))) as (ts & l' & Hl & He). rewrite T in Hl.
  destruct (symbols_total (w ++ [TEOF nol])) as (ss & Hss).
  { apply vt_app. split; [apply valid_vt; exact V|constructor]. }
  assert (Hss2 : symbols (ts ++ [TEOF l']) ss).
  { eapply erase_symbols; [exact Hss|]. rewrite !map_app, He. reflexivity. }
  destruct (transport_syntax _ _ G _ _ Hss Hss2 ltac:(left; eauto)) as (rs2 & G2 & E2).
  destruct (parse_complete _ _ _ _ Hl G2) as (rs3 & Hp & E3). exists rs3. split; [exact Hp|].
  clear - E2 E3. revert rs E2. induction E3 as [|x y l l' H _ IH]; intros rs E2; inversion E2; subst; constructor; auto.
  apply empty_loc in H. unfold eq_but_loc in *. congruence.
Qed.
Lemma show_unparse : forall name rs rs', Forall wf_rule rs -> parse_str name (show_rules rs) = Ok rs' ->
  Forall group_ok_rule rs.
Proof.
  intros name rs rs' Hw Hp. destruct (rules_shown rs Hw) as (w & G & V & T & A & B).
  destruct (adj_split w None (A True (or_introl I))) as [H|(a & l & b & -> & Ha & Hn)]; [auto|exfalso].
  apply parse_sound in Hp as (ts & Hl & _). rewrite <- T, flat_map_app in Hl. cbn [flat_map tok_text app] in Hl.
  apply Forall_app in V as (V & _). destruct (text b) as [|c r]; [discriminate|]. cbn in Hn. injection Hn as ->.
  exact (star_paren_fails _ _ _ _ V Ha Hl).
Qed.
