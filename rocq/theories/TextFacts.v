(** Proofs about identifiers and locations. *)
From Coq Require Import List NArith Arith Bool Lia.
From Verif Require Import Base Ident SpecText.
Import ListNotations.

Lemma str_eqb_refl : forall a, str_eqb a a = true.
Proof. induction a; cbn; [reflexivity|]. now rewrite N.eqb_refl. Qed.
Lemma str_eqb_eq : forall a b, str_eqb a b = true <-> a = b.
Proof.
  induction a as [|x a IH]; destruct b as [|y b]; cbn; split; intro H; try discriminate; auto.
  - apply andb_true_iff in H as [H1 H2]. apply N.eqb_eq in H1. apply IH in H2. now subst.
  - injection H as -> ->. rewrite N.eqb_refl. now apply IH.
Qed.
Lemma str_eqb_neq : forall a b, str_eqb a b = false <-> a <> b.
Proof.
  intros a b. rewrite <- not_true_iff_false. now rewrite str_eqb_eq.
Qed.

Lemma is_gap_spec : forall c, is_gap c = true <-> gap_char c.
Proof.
  intro c. unfold is_gap, gap_char. rewrite !orb_true_iff, !N.eqb_eq. tauto.
Qed.
Lemma is_gap_false : forall c, is_gap c = false <-> ~ gap_char c.
Proof. intro c. rewrite <- is_gap_spec. now rewrite not_true_iff_false. Qed.

(** ** Words *)

Lemma nongap_span : forall s, exists w t,
  s = w ++ t /\ Forall (fun c => ~ gap_char c) w /\
  (t = [] \/ exists c t', t = c :: t' /\ gap_char c).
Proof.
  induction s as [|c s (w & t & -> & Hw & Ht)].
  - exists [], []. auto.
  - destruct (is_gap c) eqn:E.
    + exists [], (c :: w ++ t). apply is_gap_spec in E. repeat split; auto. right; eauto.
    + exists (c :: w), t. apply is_gap_false in E. repeat split; auto.
Qed.

Lemma words_total_aux : forall n s, length s <= n -> exists ws, words_of s ws.
Proof.
  induction n as [|n IH]; intros s Hn.
  - destruct s; [|cbn in Hn; lia]. exists []. constructor.
  - destruct (nongap_span s) as (w & t & -> & Hw & Ht).
    destruct w as [|x w].
    + cbn in *. destruct Ht as [->|(c & t' & -> & Hc)].
      * exists []. constructor.
      * destruct (IH t') as [ws H]; [cbn in Hn; lia|]. exists ws. now constructor.
    + destruct (IH t) as [ws H]; [rewrite app_length in Hn; cbn in Hn; lia|].
      exists ((x :: w) :: ws). apply (words_word (x :: w)); auto. discriminate.
Qed.
Lemma words_total : forall s, exists ws, words_of s ws.
Proof. intro s. now apply (words_total_aux (length s)). Qed.

Lemma span_unique : forall (P : char -> Prop) w1 t1 w2 t2,
  Forall (fun c => ~ P c) w1 -> Forall (fun c => ~ P c) w2 ->
  (t1 = [] \/ exists c t', t1 = c :: t' /\ P c) ->
  (t2 = [] \/ exists c t', t2 = c :: t' /\ P c) ->
  w1 ++ t1 = w2 ++ t2 -> w1 = w2 /\ t1 = t2.
Proof.
  intros P. induction w1 as [|x w1 IH]; intros t1 w2 t2 H1 H2 T1 T2 E.
  - destruct w2 as [|y w2]; [auto|]. cbn in E. subst t1.
    destruct T1 as [T1|(c & t' & T1 & Hc)]; [discriminate|].
    injection T1 as <- <-. inversion H2. contradiction.
  - destruct w2 as [|y w2].
    + cbn in E. subst t2. destruct T2 as [T2|(c & t' & T2 & Hc)]; [discriminate|].
      injection T2 as <- <-. inversion H1. contradiction.
    + injection E as <- E. inversion H1; inversion H2; subst.
      destruct (IH t1 w2 t2) as [-> ->]; auto.
Qed.

Lemma words_inv : forall s ws, words_of s ws ->
  match s with
  | [] => ws = []
  | c :: r =>
      (gap_char c /\ words_of r ws) \/
      (~ gap_char c /\ exists w t ws', s = w ++ t /\ ws = w :: ws' /\ w <> [] /\
         Forall (fun c => ~ gap_char c) w /\
         (t = [] \/ exists c t', t = c :: t' /\ gap_char c) /\ words_of t ws')
  end.
Proof.
  intros s ws H. destruct H as [|c s ws Hc H|w s ws Hne Hw Hs H]; auto.
  destruct w as [|x w]; [contradiction|]. cbn. right. split.
  - inversion Hw; auto.
  - exists (x :: w), s, ws. repeat split; auto.
Qed.

Lemma words_unique : forall s ws1, words_of s ws1 -> forall ws2, words_of s ws2 -> ws1 = ws2.
Proof.
  induction 1 as [|c s ws Hc H IH|w s ws Hne Hw Hs H IH]; intros ws2 H2;
    apply words_inv in H2.
  - auto.
  - destruct H2 as [[_ H2]|[Hn _]]; [auto|contradiction].
  - destruct w as [|x w]; [contradiction|]. cbn in H2. inversion Hw; subst.
    destruct H2 as [[Hn _]|[_ (w' & t & ws' & E & -> & _ & Hw' & Ht & H2)]]; [contradiction|].
    change (x :: w ++ s) with ((x :: w) ++ s) in E.
    destruct (span_unique _ _ _ _ _ Hw Hw' Hs Ht E) as [-> ->]. f_equal. auto.
Qed.

Lemma words_ok : forall s ws, words_of s ws ->
  Forall (fun w => w <> [] /\ Forall (fun c => ~ gap_char c) w) ws.
Proof. induction 1; auto. Qed.

(** ** Normalisation *)

Lemma norm_loop_nongap : forall w b s, w <> [] -> Forall (fun c => ~ gap_char c) w ->
  norm_loop b (w ++ s) = (w ++ fst (norm_loop false s), snd (norm_loop false s)).
Proof.
  induction w as [|c w IH]; intros b s Hne H; [contradiction|].
  inversion H as [|? ? Hc Hw]; subst. apply is_gap_false in Hc. cbn. rewrite Hc.
  destruct w as [|d w].
  - cbn. now destruct (norm_loop false s).
  - rewrite IH; [reflexivity|discriminate|auto].
Qed.

Definition drop_last_space (p : str * bool) : str :=
  let '(b, w) := p in
  if w && negb (match b with [] => true | _ => false end)
  then firstn (length b - 1) b else b.

Lemma firstn_last : forall (b : str) x, firstn (length (b ++ [x]) - 1) (b ++ [x]) = b.
Proof.
  intros b x. rewrite app_length. cbn. replace (length b + 1 - 1) with (length b) by lia.
  rewrite firstn_app, firstn_all, Nat.sub_diag. cbn. now rewrite app_nil_r.
Qed.

Lemma norm_loop_words : forall s ws, words_of s ws ->
  (* after a gap *)
  ((ws = [] -> norm_loop true s = ([], true)) /\
   (ws <> [] -> norm_loop true s = (unwords ws, false) \/
                norm_loop true s = (unwords ws ++ [32%N], true))) /\
  (* after a word *)
  ((s = [] \/ exists c t, s = c :: t /\ gap_char c) ->
   (s = [] -> norm_loop false s = ([], false)) /\
   (ws = [] -> s <> [] -> norm_loop false s = ([32%N], true)) /\
   (ws <> [] -> norm_loop false s = (32%N :: unwords ws, false) \/
                norm_loop false s = (32%N :: unwords ws ++ [32%N], true))).
Proof.
  induction 1 as [|c s ws Hc H IH|w s ws Hne Hw Hs H IH].
  - split; [split; [reflexivity|contradiction]|].
    intros _. repeat split; auto; intros; contradiction.
  - destruct IH as [[IH1 IH2] _]. apply is_gap_spec in Hc. split.
    + cbn. rewrite Hc. cbn. auto.
    + intros _. split; [discriminate|]. cbn. rewrite Hc. cbn. split.
      * intros E _. rewrite (IH1 E). reflexivity.
      * intros E. destruct (IH2 E) as [-> | ->]; cbn; auto.
  - destruct IH as [_ IH]. specialize (IH Hs). destruct IH as (IH1 & IH2 & IH3).
    split; [split; [discriminate|]|].
    + intros _. rewrite norm_loop_nongap; auto.
      destruct ws as [|w2 ws].
      * destruct Hs as [->|(c & t & -> & Hc)].
        -- left. cbn. now rewrite app_nil_r.
        -- right. rewrite IH2; auto; discriminate.
      * destruct IH3 as [-> | ->]; [discriminate| |]; cbn [fst snd].
        -- left. reflexivity.
        -- right. f_equal. cbn [unwords]. rewrite <- app_assoc. reflexivity.
    + intros [E|(c & t & E & Hc)].
      * destruct w; [contradiction|discriminate].
      * destruct w as [|x w]; [contradiction|]. injection E as -> _.
        inversion Hw. contradiction.
Qed.

Lemma normalized_words : forall s ws, words_of s ws -> normalized s = unwords ws.
Proof.
  intros s ws H. unfold normalized.
  destruct (norm_loop_words s ws H) as [[H1 H2] _].
  destruct ws as [|w ws].
  - rewrite H1; auto.
  - destruct H2 as [-> | ->]; [discriminate| |].
    + reflexivity.
    + replace (match unwords (w :: ws) ++ [32%N] with [] => true | _ => false end) with false.
      * cbn [negb andb]. apply firstn_last.
      * now destruct (unwords (w :: ws)).
Qed.

Lemma unwords_words : forall ws,
  Forall (fun w => w <> [] /\ Forall (fun c => ~ gap_char c) w) ws -> words_of (unwords ws) ws.
Proof.
  induction ws as [|w ws IH]; intro H; [constructor|].
  inversion H as [|? ? [H1 H2] H3]; subst.
  destruct ws as [|w2 ws].
  - cbn. rewrite <- (app_nil_r w) at 1. apply words_word; auto using words_nil.
  - change (unwords (w :: w2 :: ws)) with (w ++ 32%N :: unwords (w2 :: ws)).
    assert (G : gap_char 32%N) by (left; reflexivity).
    apply words_word; auto.
    + right. eauto.
    + apply words_gap; auto.
Qed.

Definition no_double (s : str) :=
  forall a b c d, s = a ++ c :: d :: b -> ~ (gap_char c /\ gap_char d).
Lemma no_double_cons : forall x s, ~ gap_char x -> no_double s -> no_double (x :: s).
Proof.
  intros x s Hx H a b c d E [Hc Hd]. destruct a as [|y a]; injection E as -> E.
  - contradiction.
  - now apply (H a b c d E).
Qed.
Lemma no_double_gap : forall x s, (forall c r, s = c :: r -> ~ gap_char c) ->
  no_double s -> no_double (x :: s).
Proof.
  intros x s Hx H a b c d E [Hc Hd]. destruct a as [|y a]; injection E as -> E.
  - now apply (Hx d b).
  - now apply (H a b c d E).
Qed.

Lemma unwords_canonical : forall ws,
  Forall (fun w => w <> [] /\ Forall (fun c => ~ gap_char c) w) ws -> canonical (unwords ws).
Proof.
  intros ws H.
  assert (A : forall ws, Forall (fun w => w <> [] /\ Forall (fun c => ~ gap_char c) w) ws ->
            (forall c, In c (unwords ws) -> gap_char c -> c = 32%N) /\
            (forall c r, unwords ws = c :: r -> ~ gap_char c)).
  { clear. induction ws as [|w ws IH]; intro H; [split; [contradiction|discriminate]|].
    inversion H as [|? ? [H1 H2] H3]; subst. rewrite Forall_forall in H2.
    destruct (IH H3) as [I1 I2]. destruct ws as [|w2 ws].
    - cbn. split.
      + intros c Hc G. now apply H2 in Hc.
      + intros c r E. subst. apply H2. now left.
    - change (unwords (w :: w2 :: ws)) with (w ++ 32%N :: unwords (w2 :: ws)). split.
      + intros c Hc G. apply in_app_iff in Hc as [Hc|[Hc|Hc]]; auto. now apply H2 in Hc.
      + intros c r E. destruct w as [|x w]; [contradiction|]. injection E as -> _.
        apply H2. now left. }
  split; [apply A; auto|]. split; [|split; [apply A; auto|]].
  - change (no_double (unwords ws)). induction H as [|w ws [H1 H2] H3 IH].
    + intros a b c d E; destruct a as [|? [|]]; discriminate.
    + clear H1. destruct ws as [|w2 ws].
      * cbn. induction H2; [intros a b c d E; destruct a as [|? [|]]; discriminate|].
        now apply no_double_cons.
      * change (unwords (w :: w2 :: ws)) with (w ++ 32%N :: unwords (w2 :: ws)).
        induction H2; cbn [app].
        -- apply no_double_gap; auto. apply A; auto.
        -- now apply no_double_cons.
  - intros c r E. induction ws as [|w ws IH] in r, H, E |- *.
    + destruct r; discriminate.
    + inversion H as [|? ? [H1 H2] H3]; subst. rewrite Forall_forall in H2.
      destruct ws as [|w2 ws].
      * cbn in E. subst w. apply H2, in_app_iff. right. now left.
      * change (unwords (w :: w2 :: ws)) with (w ++ 32%N :: unwords (w2 :: ws)) in E.
        destruct (exists_last (l := unwords (w2 :: ws))) as (r' & c' & E').
        { inversion H3 as [|? ? [H4 _] _]; subst. destruct w2; [contradiction|].
          cbn. destruct ws; discriminate. }
        rewrite E' in E. rewrite app_comm_cons, app_assoc in E.
        apply app_inj_tail in E as [_ <-]. eapply IH; eauto.
Qed.

Lemma normalized_idem : forall s, normalized (normalized s) = normalized s.
Proof.
  intro s. destruct (words_total s) as [ws H]. rewrite (normalized_words _ _ H).
  apply normalized_words, unwords_words, (words_ok _ _ H).
Qed.

Lemma keyed_words : forall s ws, words_of s ws -> keyed s = concat ws.
Proof.
  unfold keyed. induction 1 as [|c s ws Hc H IH|w s ws Hne Hw Hs H IH]; auto.
  - cbn. apply is_gap_spec in Hc. now rewrite Hc.
  - rewrite filter_app, IH. cbn. f_equal. clear - Hw. induction w as [|c w IH]; auto.
    inversion Hw as [|? ? Hc Hw']; subst. apply is_gap_false in Hc. cbn. rewrite Hc. cbn.
    f_equal. auto.
Qed.

Lemma keyed_normalized : forall s, keyed (normalized s) = keyed s.
Proof.
  intro s. destruct (words_total s) as [ws H]. rewrite (normalized_words _ _ H).
  rewrite (keyed_words _ _ H). apply keyed_words, unwords_words, (words_ok _ _ H).
Qed.

Lemma keyed_idem : forall s, keyed (keyed s) = keyed s.
Proof.
  unfold keyed. induction s as [|c s IH]; auto. cbn.
  destruct (is_gap c) eqn:E; cbn; auto. rewrite E. cbn. now rewrite IH.
Qed.

Lemma normalized_canonical : forall s, canonical (normalized s).
Proof.
  intro s. destruct (words_total s) as [ws H]. rewrite (normalized_words _ _ H).
  apply unwords_canonical, (words_ok _ _ H).
Qed.

(** ** Locations *)

Lemma push_str_app : forall l a b, loc_push_str l (a ++ b) = loc_push_str (loc_push_str l a) b.
Proof. intros. unfold loc_push_str. apply fold_left_app. Qed.

Lemma push_str_cons : forall l c t, loc_push_str l (c :: t) = loc_push_str (loc_push l c) t.
Proof. reflexivity. Qed.

Lemma push_str_name : forall t l, l_name (loc_push_str l t) = l_name l.
Proof.
  induction t as [|c t IH]; intro l; auto. rewrite push_str_cons, IH. unfold loc_push.
  now destruct (N.eqb c 10).
Qed.
Lemma push_str_lines : forall t l, l_lines (loc_push_str l t) = (l_lines l + newlines t)%N.
Proof.
  induction t as [|c t IH]; intro l; [cbn; lia|]. rewrite push_str_cons, IH.
  cbn [newlines]. unfold loc_push. destruct (N.eqb c 10); cbn [l_lines]; lia.
Qed.
Lemma push_str_no_newline : forall t l, ~ In 10%N t ->
  l_columns (loc_push_str l t) = (l_columns l + N.of_nat (length t))%N.
Proof.
  induction t as [|c t IH]; intros l H; [cbn; lia|].
  rewrite push_str_cons, IH; [|intro; apply H; now right].
  unfold loc_push. destruct (N.eqb_spec c 10).
  - subst. exfalso. apply H. now left.
  - cbn [l_columns length]. lia.
Qed.
Lemma push_str_reaches : forall l t, reaches l t (loc_push_str l t).
Proof.
  intros l t. split; [apply push_str_name|]. split; [apply push_str_lines|].
  split; [apply push_str_no_newline|].
  intros a (b & -> & Ha). rewrite push_str_app, push_str_cons.
  rewrite push_str_no_newline; auto.
Qed.

Lemma reaches_unique : forall l t l1 l2, reaches l t l1 -> reaches l t l2 -> l1 = l2.
Proof.
  intros l t [n1 a1 b1] [n2 a2 b2] (H1 & H2 & H3 & H4) (G1 & G2 & G3 & G4).
  cbn in *. f_equal; try congruence.
  destruct (in_dec N.eq_dec 10%N t) as [Hin|Hn].
  - assert (exists a, last_line t a) as [a Ha].
    { clear - Hin. induction t as [|c t IH]; [contradiction|].
      destruct (in_dec N.eq_dec 10%N t) as [Ht|Ht].
      - destruct (IH Ht) as (a & b & -> & Ha). exists a, (c :: b). auto.
      - destruct Hin as [->|]; [|contradiction]. exists t, []. auto. }
    rewrite (H4 a Ha), (G4 a Ha). reflexivity.
  - rewrite (H3 Hn), (G3 Hn). reflexivity.
Qed.

(** ** Order *)

Lemma str_cmp_eq : forall a b, str_cmp a b = Eq <-> a = b.
Proof.
  induction a as [|x a IH]; destruct b as [|y b]; cbn; split; intro H; try discriminate; auto.
  - destruct (N.compare_spec x y); try discriminate. apply IH in H. now subst.
  - injection H as -> ->. rewrite N.compare_refl. now apply IH.
Qed.
Lemma str_cmp_refl : forall a, str_cmp a a = Eq.
Proof. intro a. now apply str_cmp_eq. Qed.
Lemma str_cmp_antisym : forall a b, str_cmp b a = CompOpp (str_cmp a b).
Proof.
  induction a as [|x a IH]; destruct b as [|y b]; cbn; auto.
  rewrite (N.compare_antisym x y). destruct (N.compare x y); cbn; auto.
Qed.
Lemma str_cmp_lt_trans : forall a b c, str_cmp a b = Lt -> str_cmp b c = Lt -> str_cmp a c = Lt.
Proof.
  induction a as [|x a IH]; destruct b as [|y b]; destruct c as [|z c]; cbn; intros H1 H2;
    try discriminate; auto.
  destruct (N.compare_spec x y); try discriminate;
  destruct (N.compare_spec y z); try discriminate; subst.
  - rewrite N.compare_refl. eauto.
  - now apply N.compare_lt_iff in H0 as ->.
  - now apply N.compare_lt_iff in H as ->.
  - assert (x < z)%N as ->%N.compare_lt_iff by lia. auto.
Qed.

Lemma loc_cmp_partial : forall a b, loc_partial_cmp a b = Some (loc_cmp a b).
Proof.
  intros [n1 l1 c1] [n2 l2 c2]. unfold loc_cmp, loc_partial_cmp. cbn.
  destruct (str_eqb n1 n2) eqn:E; cbn.
  - apply str_eqb_eq in E. subst. rewrite str_cmp_refl.
    destruct (N.compare_spec l1 l2).
    + subst. rewrite N.ltb_irrefl. destruct (N.compare_spec c1 c2).
      * subst. now rewrite N.ltb_irrefl.
      * apply N.ltb_lt in H as ->. auto.
      * assert (c1 <? c2 = false)%N as -> by (apply N.ltb_ge; lia).
        apply N.ltb_lt in H as ->. auto.
    + apply N.ltb_lt in H as ->. auto.
    + assert (l1 <? l2 = false)%N as -> by (apply N.ltb_ge; lia).
      apply N.ltb_lt in H as ->. auto.
  - apply str_eqb_neq in E. destruct (str_cmp n1 n2) eqn:F; auto.
    apply str_cmp_eq in F. contradiction.
Qed.

Lemma loc_cmp_lex : forall a b, loc_cmp a b =
  match str_cmp (l_name a) (l_name b) with
  | Eq => match N.compare (l_lines a) (l_lines b) with
          | Eq => N.compare (l_columns a) (l_columns b)
          | c => c
          end
  | c => c
  end.
Proof.
  intros a b. generalize (loc_cmp_partial a b). unfold loc_partial_cmp.
  destruct (str_cmp _ _); try (destruct (N.compare (l_lines a) _)); now intros [= <-].
Qed.

Lemma loc_cmp_eq : forall a b, loc_cmp a b = Eq <-> a = b.
Proof.
  intros a b. rewrite loc_cmp_lex. destruct a as [n1 l1 c1], b as [n2 l2 c2]; cbn.
  split; intro H.
  - destruct (str_cmp n1 n2) eqn:E; try discriminate. apply str_cmp_eq in E.
    destruct (N.compare_spec l1 l2); try discriminate.
    apply N.compare_eq_iff in H. now subst.
  - injection H as -> -> ->. now rewrite str_cmp_refl, !N.compare_refl.
Qed.
Lemma loc_cmp_antisym : forall a b, loc_cmp b a = CompOpp (loc_cmp a b).
Proof.
  intros a b. rewrite !loc_cmp_lex, (str_cmp_antisym (l_name a)).
  destruct (str_cmp (l_name a) (l_name b)); cbn; auto.
  rewrite (N.compare_antisym (l_lines a)).
  destruct (N.compare (l_lines a) (l_lines b)); cbn; auto.
  apply N.compare_antisym.
Qed.
Lemma loc_cmp_lt_trans : forall a b c, loc_cmp a b = Lt -> loc_cmp b c = Lt -> loc_cmp a c = Lt.
Proof.
  intros a b c. rewrite !loc_cmp_lex.
  destruct (str_cmp (l_name a) (l_name b)) eqn:E1; try discriminate;
  destruct (str_cmp (l_name b) (l_name c)) eqn:E2; try discriminate.
  - apply str_cmp_eq in E1, E2. rewrite E1, E2, str_cmp_refl.
    destruct (N.compare_spec (l_lines a) (l_lines b)) as [H1|H1|H1]; try discriminate;
    destruct (N.compare_spec (l_lines b) (l_lines c)) as [H2|H2|H2]; try discriminate.
    + rewrite H1, H2, N.compare_refl, !N.compare_lt_iff. lia.
    + rewrite H1. intros _ _. now apply N.compare_lt_iff in H2 as ->.
    + rewrite <- H2. intros _ _. now apply N.compare_lt_iff in H1 as ->.
    + assert (l_lines a < l_lines c)%N as ->%N.compare_lt_iff by lia. auto.
  - apply str_cmp_eq in E1. rewrite E1, E2. auto.
  - apply str_cmp_eq in E2. rewrite <- E2, E1. auto.
  - now rewrite (str_cmp_lt_trans _ _ _ E1 E2).
Qed.

Lemma loc_ltb_cmp : forall a b, loc_ltb a b = true <-> loc_cmp a b = Lt.
Proof.
  intros a b. unfold loc_ltb. rewrite loc_cmp_partial. destruct (loc_cmp a b); split; congruence.
Qed.
Lemma loc_eqb_eq : forall a b, loc_eqb a b = true <-> a = b.
Proof.
  intros [n1 l1 c1] [n2 l2 c2]. unfold loc_eqb. cbn.
  rewrite !andb_true_iff, str_eqb_eq, !N.eqb_eq. split.
  - intros [[-> ->] ->]. auto.
  - now intros [= -> -> ->].
Qed.
Lemma loc_eqb_refl : forall a, loc_eqb a a = true.
Proof. intro a. now apply loc_eqb_eq. Qed.

Lemma loc_cmp_push1 : forall l c, loc_cmp l (loc_push l c) = Lt.
Proof.
  intros [n l c] x. rewrite loc_cmp_lex. unfold loc_push.
  destruct (N.eqb x 10); cbn; rewrite str_cmp_refl.
  - assert (l < l + 1)%N as ->%N.compare_lt_iff by lia. auto.
  - rewrite N.compare_refl. apply N.compare_lt_iff. lia.
Qed.
Lemma loc_cmp_push : forall t l, t <> [] -> loc_cmp l (loc_push_str l t) = Lt.
Proof.
  induction t as [|c t IH]; intros l H; [contradiction|].
  destruct t as [|d t].
  - apply loc_cmp_push1.
  - change (loc_push_str l (c :: d :: t)) with (loc_push_str (loc_push l c) (d :: t)).
    apply loc_cmp_lt_trans with (loc_push l c); [apply loc_cmp_push1|].
    apply IH. discriminate.
Qed.
