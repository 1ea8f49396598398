(** Texts of short tokens with long names and deep brackets. *)
From Coq Require Import String List NArith Arith Bool Lia.
From Verif Require Import Base Ast Tokenizer Lex SpecNest LexDepth SpecText TextFacts SpecTok SpecLex SpecGram TokFacts TokRun LexRun GramFacts GramFinal GramText LexCostFamily LexDepthFacts.
Import ListNotations.
Open Scope nat_scope.

(** ** Locations do not count *)
Lemma nest_reloc : forall p, nest_p (reloc_primary nowhere same p) = nest_p p.
Proof.
  fix IH 1. intros p.
  assert (Hd : forall d : definition_list, nest_dl (reloc_defs nowhere same d) = nest_dl d).
  { intros d. induction d as [|sd d IHd]; [reflexivity|]. unfold reloc_defs in *. cbn [map]. rewrite !nest_dl_cons. f_equal; [|exact IHd].
    induction sd as [|t sd IHs]; [reflexivity|]. unfold reloc_single in *. cbn [map]. rewrite !nest_sd_cons. f_equal; [|exact IHs].
    destruct t as [[n q] [[m q']|]]; unfold nest_t, reloc_term, reloc_factor; cbn [t_factor t_exc option_map f_rep f_prim]; rewrite ?IH; reflexivity. }
  destruct p; cbn [reloc_primary]; try reflexivity; exact (f_equal S (Hd _)).
Qed.
Lemma nest_reloc_defs : forall d : definition_list, nest_dl (reloc_defs nowhere same d) = nest_dl d.
Proof. intros d. pose proof (nest_reloc (POptional (Loc [] 0 0) d)) as H. injection H. auto. Qed.
Lemma nest_but_empty : forall a b, eq_but_empty a b -> r_id a = r_id b /\ nest_dl (r_defs a) = nest_dl (r_defs b).
Proof.
  intros [l id d] [l' id' d'] H. unfold eq_but_empty, reloc_rule in H. cbn [r_loc r_id r_defs] in *.
  injection H as _ -> H. split; [reflexivity|]. rewrite <- (nest_reloc_defs d), <- (nest_reloc_defs d'), H. reflexivity.
Qed.

(** ** The text *)

(** [a] in [n] pairs of round brackets. *)
Fixpoint boxed (n : nat) : str :=
  match n with
  | O => [97%N]
  | S n => c_lpar :: boxed n ++ [c_rpar]
  end.
(** [n + 1] times the word [a]. *)
Fixpoint many (n : nat) : str :=
  match n with
  | O => [97%N]
  | S n => 97%N :: c_space :: many n
  end.
Definition tall (n : nat) : str := many n ++ c_eq :: boxed n ++ [c_semi].

Definition small (ts : list token) : Prop := Forall (fun t => length (tok_text t) <= 1) ts.

Lemma meta_valid : forall l, valid_tok (TMeta l [97%N]).
Proof. intros l. exists 97%N, []. split; [reflexivity|]. split; [unfold letter; lia|constructor]. Qed.
Definition quiet (c : char) : Prop := ~ letter c /\ ~ digit c.

Lemma boxed_lexes : forall n c rest (K : list token -> Prop), quiet c ->
  (forall l, exists ts, lexes l (c :: rest) ts /\ K ts) ->
  forall l, exists ns p ts, g_primary ns p /\ nest_p p = n /\ small ns /\ lexes l (boxed n ++ c :: rest) (ns ++ ts) /\ K ts.
Proof.
  induction n as [|n IH]; intros c rest K Hc HK l.
  - destruct (HK (loc_push_str l [97%N])) as (ts & Hts & Hk).
    exists [TMeta l [97%N]], (PMeta l [97%N]), ts. split.
    { constructor. apply (g_ident_words l [97%N] [] [[97%N]]); [constructor|left; reflexivity|].
      apply (words_word [97%N] [] []); [discriminate|constructor; [unfold gap_char; lia|constructor]|left; reflexivity|constructor]. }
    split; [reflexivity|]. split; [constructor; [cbn; lia|constructor]|]. split; [|exact Hk].
    apply (lexes_one l (TMeta l [97%N]) (c :: rest)); [apply meta_valid|reflexivity|exact Hc|exact Hts].
  - set (l1 := loc_push_str l [c_lpar]).
    destruct (IH c_rpar (c :: rest) (fun ts => exists l2 ts2, ts = TEndGroup l2 :: ts2 /\ K ts2)) with (l := l1)
      as (ns & p & ts & Hp & Hn & Hsm & Hlex & (l2 & ts2 & -> & Hk)).
    { unfold quiet, letter, digit. lia. }
    { intros l2. destruct (HK (loc_push_str l2 [c_rpar])) as (ts & Hts & Hk).
      exists (TEndGroup l2 :: ts). split; [|exists l2, ts; split; [reflexivity|exact Hk]].
      apply (lexes_one l2 (TEndGroup l2)); [exact I|reflexivity|exact I|exact Hts]. }
    exists (TStartGroup l :: ns ++ [TEndGroup l2]), (PGrouped l [[Term (Factor 1%N p) None]]), ts2.
    split.
    { constructor. apply g_last_def, g_last_term, g_plain. rewrite <- (app_nil_r ns). apply (g_once [] ns [] p); [constructor|exact Hp|constructor]. }
    split; [cbn; rewrite Hn; lia|].
    split; [constructor; [cbn; lia|]; apply Forall_app; split; [exact Hsm|constructor; [cbn; lia|constructor]]|].
    split; [|exact Hk].
    cbn [boxed app]. rewrite <- !app_assoc. cbn [app].
    apply (lexes_one l (TStartGroup l)); [exact I|reflexivity| |exact Hlex].
    destruct n; cbn; repeat split; discriminate.
Qed.

Lemma many_lexes : forall n c rest (K : list token -> Prop), quiet c -> ~ gap_char c ->
  (forall l, exists ts, lexes l (c :: rest) ts /\ K ts) ->
  forall l, exists l1 s1 w ws ts,
    Forall word_or_gap w /\ (w = [] \/ exists w' l' s', w = w' ++ [TMeta l' s']) /\
    words_of (flat_map tok_text (TMeta l1 s1 :: w)) ws /\ ws <> [] /\ length (unwords ws) = 2 * n + 1 /\
    small (TMeta l1 s1 :: w) /\ lexes l (many n ++ c :: rest) ((TMeta l1 s1 :: w) ++ ts) /\ K ts.
Proof.
  induction n as [|n IH]; intros c rest K Hc Hg HK l.
  - destruct (HK (loc_push_str l [97%N])) as (ts & Hts & Hk).
    exists l, [97%N], [], [[97%N]], ts. split; [constructor|]. split; [left; reflexivity|]. split.
    { apply (words_word [97%N] [] []); [discriminate|constructor; [unfold gap_char; lia|constructor]|left; reflexivity|constructor]. }
    split; [discriminate|]. split; [reflexivity|]. split; [constructor; [cbn; lia|constructor]|]. split; [|exact Hk].
    apply (lexes_one l (TMeta l [97%N]) (c :: rest)); [apply meta_valid|reflexivity|exact Hc|exact Hts].
  - set (l2 := loc_push_str l [97%N]). set (l3 := loc_push_str l2 [c_space]).
    destruct (IH c rest K Hc Hg HK l3) as (l1 & s1 & w & ws & ts & Hw & Hend & Hws & Hne & Hlen & Hsm & Hlex & Hk).
    exists l, [97%N], (TGap l2 [c_space] :: TMeta l1 s1 :: w), ([97%N] :: ws), ts.
    split; [constructor; [exact I|]; constructor; [exact I|exact Hw]|].
    split.
    { right. destruct Hend as [->|(w' & l' & s' & ->)].
      - exists [TGap l2 [c_space]], l1, s1. reflexivity.
      - exists (TGap l2 [c_space] :: TMeta l1 s1 :: w'), l', s'. reflexivity. }
    split.
    { change (flat_map tok_text (TMeta l [97%N] :: TGap l2 [c_space] :: TMeta l1 s1 :: w)) with
        ([97%N] ++ c_space :: flat_map tok_text (TMeta l1 s1 :: w)).
      apply words_word; [discriminate|constructor; [unfold gap_char; lia|constructor]| |].
      - right. eexists _, _. split; [reflexivity|]. unfold gap_char. lia.
      - apply words_gap; [unfold gap_char; lia|exact Hws]. }
    split; [discriminate|].
    split; [destruct ws as [|w0 ws]; [congruence|]; cbn [unwords app length] in *; lia|].
    split; [constructor; [cbn; lia|]; constructor; [cbn; lia|exact Hsm]|]. split; [|exact Hk].
    cbn [many app]. apply (lexes_one l (TMeta l [97%N])); [apply meta_valid|reflexivity|cbn; unfold letter, digit; lia|].
    apply (lexes_one l2 (TGap l2 [c_space])); [split; [discriminate|constructor; [unfold gap_char; lia|constructor]]|reflexivity| |exact Hlex].
    destruct n; cbn; unfold gap_char; lia.
Qed.

Lemma tall_lexes : forall n l, exists ts r, lexes l (tall n) ts /\ small ts /\ g_syntax ts [r] /\
  length (r_id r) = 2 * n + 1 /\ nest_dl (r_defs r) = n.
Proof.
  intros n l. unfold tall.
  set (K := fun ts : list token => exists l2 ns p l3 l4, ts = TDefining l2 :: ns ++ [TTerminator l3 c_semi; TEOF l4] /\
              g_primary ns p /\ nest_p p = n /\ small ns).
  destruct (many_lexes n c_eq (boxed n ++ [c_semi]) K) with (l := l)
    as (l1 & s1 & w & ws & ts & Hw & Hend & Hws & Hne & Hlen & Hsm & Hlex & (l2 & ns & p & l3 & l4 & -> & Hp & Hn & Hsm2)).
  { unfold quiet, letter, digit. lia. }
  { unfold gap_char. lia. }
  { intros l2.
    destruct (boxed_lexes n c_semi [] (fun ts => exists l, ts = [TTerminator l c_semi; TEOF (loc_push_str l [c_semi])]))
      with (l := loc_push_str l2 [c_eq]) as (ns & p & ts & Hp & Hn & Hsm & Hlex & (l3 & ->)).
    { unfold quiet, letter, digit. lia. }
    { intros l3. eexists. split; [|exists l3; reflexivity].
      apply (lexes_one l3 (TTerminator l3 c_semi) []); [left; reflexivity|reflexivity|exact I|constructor]. }
    exists (TDefining l2 :: ns ++ [TTerminator l3 c_semi; TEOF (loc_push_str l3 [c_semi])]).
    split; [|exists l2, ns, p, l3, (loc_push_str l3 [c_semi]); repeat split; assumption].
    apply (lexes_one l2 (TDefining l2)); [exact I|reflexivity|destruct n; exact I|exact Hlex]. }
  exists ((TMeta l1 s1 :: w) ++ TDefining l2 :: ns ++ [TTerminator l3 c_semi; TEOF l4]),
    (Rule l1 (unwords ws) [[Term (Factor 1%N p) None]]).
  split; [exact Hlex|]. split.
  { apply Forall_app. split; [exact Hsm|]. constructor; [cbn; lia|]. apply Forall_app. split; [exact Hsm2|].
    constructor; [cbn; lia|]. constructor; [cbn; lia|constructor]. }
  split.
  { replace ((TMeta l1 s1 :: w) ++ TDefining l2 :: ns ++ [TTerminator l3 c_semi; TEOF l4]) with
      (([] ++ (TMeta l1 s1 :: w) ++ [] ++ TDefining l2 :: ns ++ [TTerminator l3 c_semi]) ++ ([] ++ [TEOF l4]) ++ []).
    2: { cbn [app]. rewrite <- !app_assoc. cbn [app]. rewrite <- app_assoc. reflexivity. }
    apply (g_cons _ (Some _)).
    - apply g_rule; [constructor|constructor; assumption|constructor| |exact I].
      apply g_last_def, g_last_term, g_plain. rewrite <- (app_nil_r ns). apply (g_once [] ns [] p); [constructor|exact Hp|constructor].
    - apply (g_cons _ None); [apply g_none; [constructor|exact I]|constructor]. }
  split; [exact Hlen|]. cbn. rewrite Hn. lia.
Qed.

Lemma frags_chars : forall s, frags_text (map FChar s) = s.
Proof. induction s as [|c s IH]; [reflexivity|]. cbn. f_equal. exact IH. Qed.

Theorem limit_in_vain : forall name m n, (2 <= m)%N -> exists r,
  lex_fragments name m (map FChar (tall n)) = Ok [r] /\
  length (r_id r) = 2 * n + 1 /\ nest_dl (r_defs r) = n /\ frags_deep (lx_new name m) (map FChar (tall n)) = 6 * n + 6.
Proof.
  intros name m n Hm. destruct (tall_lexes n (loc_new name)) as (ts & r & Hlex & Hsm & Hg & Hid & Hn).
  destruct (parse_complete name (tall n) ts [r] Hlex Hg) as (rs & E & HF).
  inversion HF as [|r' ? rs' ? He HF' E0]. subst rs. inversion HF'. subst rs'.
  destruct (nest_but_empty _ _ He) as (E1 & E2).
  exists r'.
  assert (Hl : lex_fragments name m (map FChar (tall n)) = Ok [r']).
  { rewrite (limit_irrelevant name m 1 (map FChar (tall n)) ts); [rewrite frags_chars; exact E|lia|rewrite frags_chars; exact Hlex| |].
    - eapply Forall_impl; [|exact Hsm]. cbn. intros t Ht. lia.
    - apply Forall_forall. intros f Hf. apply in_map_iff in Hf as (c & <- & _). cbn. lia. }
  split; [exact Hl|]. rewrite E1, E2. split; [exact Hid|]. split; [exact Hn|].
  rewrite (reading_tells _ _ _ _ Hl ltac:(discriminate)). cbn [map]. rewrite list_max_cons. unfold rule_deep. rewrite E2, Hn.
  change (list_max []) with 0. lia.
Qed.
