(** The lexer hands names of sources on. *)
From Coq Require Import String List NArith Arith Bool Lia.
From Verif Require Import Base Ident Tokenizer Ast Lex Syntax Io Decode Read Open SpecText SpecSyntax SpecLex SpecLike SpecName.
Import ListNotations.
Open Scope nat_scope.

Section Names.
Variables n1 n2 : str.
Notation R := (renamed_place n1 n2).
Notation err := (renamed_error n1 n2).
Notation rres := (renamed_res n1 n2).
Notation prim := (like R eq).
Notation defs := (like_defs R eq).
Notation single := (like_seq R eq).
Notation lterm := (like_term R eq).

(** ** Locations *)
Definition Rn (l l' : location) : Prop := l_name l = n1 /\ l' = in_source n2 l.
Lemma Rn_R : forall l l', Rn l l' -> R l l'.
Proof. intros l l' H. left. exact H. Qed.
Lemma Rn_push : forall l l' c, Rn l l' -> Rn (loc_push l c) (loc_push l' c).
Proof. intros l l' c (E & ->). split; unfold loc_push, in_source; destruct (N.eqb c c_lf); cbn; auto. Qed.
Lemma Rn_push_str : forall s l l', Rn l l' -> Rn (loc_push_str l s) (loc_push_str l' s).
Proof. induction s as [|c s IH]; intros l l' H; [exact H|]. cbn. apply IH, Rn_push, H. Qed.
Lemma Rn_reset : forall l l', Rn l l' -> Rn (loc_reset l) (loc_reset l').
Proof. intros l l' (E & ->). split; [exact E|reflexivity]. Qed.
Lemma Rn_new : Rn (loc_new n1) (loc_new n2).
Proof. split; reflexivity. Qed.

(** ** Tokens *)
Inductive tok : token -> token -> Prop :=
| k_rep : forall l l', Rn l l' -> tok (TRepetition l) (TRepetition l')
| k_exc : forall l l', Rn l l' -> tok (TExcept l) (TExcept l')
| k_con : forall l l', Rn l l' -> tok (TConcat l) (TConcat l')
| k_sep : forall l l' c, Rn l l' -> tok (TDefSep l c) (TDefSep l' c)
| k_def : forall l l', Rn l l' -> tok (TDefining l) (TDefining l')
| k_ter : forall l l' c, Rn l l' -> tok (TTerminator l c) (TTerminator l' c)
| k_sopt : forall l l' s, Rn l l' -> tok (TStartOption l s) (TStartOption l' s)
| k_eopt : forall l l' s, Rn l l' -> tok (TEndOption l s) (TEndOption l' s)
| k_srep : forall l l' s, Rn l l' -> tok (TStartRepeat l s) (TStartRepeat l' s)
| k_erep : forall l l' s, Rn l l' -> tok (TEndRepeat l s) (TEndRepeat l' s)
| k_sgrp : forall l l', Rn l l' -> tok (TStartGroup l) (TStartGroup l')
| k_egrp : forall l l', Rn l l' -> tok (TEndGroup l) (TEndGroup l')
| k_eof : forall l l', Rn l l' -> tok (TEOF l) (TEOF l')
| k_meta : forall l l' s, Rn l l' -> tok (TMeta l s) (TMeta l' s)
| k_str : forall l l' s q, Rn l l' -> tok (TTerminal l s q) (TTerminal l' s q)
| k_int : forall l l' s, Rn l l' -> tok (TInteger l s) (TInteger l' s)
| k_com : forall l l' s, Rn l l' -> tok (TComment l s) (TComment l' s)
| k_spe : forall l l' s, Rn l l' -> tok (TSpecial l s) (TSpecial l' s)
| k_gap : forall l l' s, Rn l l' -> tok (TGap l s) (TGap l' s).
Notation toks := (Forall2 tok).
Lemma tok_Rn : forall t t', tok t t' -> Rn (tok_loc t) (tok_loc t').
Proof. intros t t' H. destruct H; assumption. Qed.
Lemma err_intro : forall l l' m, Rn l l' -> err (Error_ l m) (Error_ l' m).
Proof. intros l l' m H. split; [reflexivity|apply Rn_R; exact H]. Qed.
Definition opt2 {A} (r : A -> A -> Prop) (x y : option A) : Prop :=
  match x, y with Some a, Some b => r a b | None, None => True | _, _ => False end.
Definition next_tok (x y : token * nat) : Prop := tok (fst x) (fst y) /\ snd x = snd y.
Notation rnext := (rres (opt2 next_tok)).
Ltac er := apply err_intro; assumption.
Lemma terminal_same : forall l l' b fl, Rn l l' -> rnext (terminal_string l b fl) (terminal_string l' b fl).
Proof.
  intros l l' [|q r] fl H; [reflexivity|]. cbn [terminal_string]. destruct (scan_to q is_terminal r) as [|c|[|c s]]; [|er|er|].
  - destruct fl; [er|exact I].
  - split; [constructor; exact H|reflexivity].
Qed.
Lemma special_same : forall l l' b fl, Rn l l' -> rnext (special_sequence l b fl) (special_sequence l' b fl).
Proof.
  intros l l' [|q r] fl H; [reflexivity|]. cbn [special_sequence]. destruct (scan_to c_quest is_special r) as [|c|s]; [|er|].
  - destruct fl; [er|exact I].
  - split; [constructor; exact H|reflexivity].
Qed.
Lemma comment_loop_same : forall b p d l l', Rn l l' ->
  match comment_loop p d l b, comment_loop p d l' b with
  | CEnd, CEnd => True
  | CBad m c, CBad m' c' => Rn m m' /\ c = c'
  | CFound n, CFound n' => n = n'
  | _, _ => False
  end.
Proof.
  induction b as [|c r IH]; intros p d l l' H; [exact I|]. cbn [comment_loop].
  assert (K : forall e, match (match comment_loop c e (loc_push l c) r with CFound n => CFound (S n) | x => x end),
      (match comment_loop c e (loc_push l' c) r with CFound n => CFound (S n) | x => x end) with
      | CEnd, CEnd => True | CBad m c, CBad m' c' => Rn m m' /\ c = c' | CFound n, CFound n' => n = n' | _, _ => False end).
  { intros e. specialize (IH c e _ _ (Rn_push _ _ c H)).
    destruct (comment_loop c e (loc_push l c) r), (comment_loop c e (loc_push l' c) r); try contradiction; try exact IH. congruence. }
  destruct ((p =? c_star)%N && (c =? c_rpar)%N)%bool; [destruct d; [reflexivity|apply K]|].
  destruct ((p =? c_lpar)%N && (c =? c_star)%N)%bool; [apply K|].
  destruct (negb (is_gap c) && negb (is_terminal c))%bool; [split; [exact H|reflexivity]|apply K].
Qed.
Lemma comment_same : forall l l' b fl, Rn l l' -> rnext (comment l b fl) (comment l' b fl).
Proof.
  intros l l' [|q [|p r]] fl H; try reflexivity. cbn [comment].
  pose proof (comment_loop_same r p 0 _ _ (Rn_push_str [c_lpar; c_star] _ _ H)) as K.
  destruct (comment_loop p 0 (loc_push_str l [c_lpar; c_star]) r) as [|m c|[|n]], (comment_loop p 0 (loc_push_str l' [c_lpar; c_star]) r) as [|m' c'|[|n']]; try contradiction; try discriminate.
  - destruct fl; [er|exact I].
  - destruct K as (K & <-). apply err_intro. exact K.
  - reflexivity.
  - injection K as <-. split; [constructor; exact H|reflexivity].
Qed.
Lemma tok_ok_same : forall t t' n, tok t t' -> rnext (tok_ok t n) (tok_ok t' n).
Proof. intros t t' n H. split; [exact H|reflexivity]. Qed.
Lemma map_same : forall (f g : nat -> token) o, (forall n, tok (f n) (g n)) ->
  rnext (Ok (option_map (fun n => (f n, n)) o)) (Ok (option_map (fun n => (g n, n)) o)).
Proof. intros f g [n|] H; [split; [apply H|reflexivity]|exact I]. Qed.
Lemma read_next_same : forall l l' b fl, Rn l l' -> rnext (read_next l b fl) (read_next l' b fl).
Proof.
  intros l l' b fl H. destruct b as [|c r]; [exact I|]. unfold read_next.
  repeat match goal with |- renamed_res _ _ _ (if ?x then _ else _) (if ?x then _ else _) => destruct x end;
    try (apply tok_ok_same; constructor; assumption); try exact I; try er;
    try (apply terminal_same; assumption); try (apply special_same; assumption); try (apply comment_same; assumption);
    try (apply map_same; intros n; constructor; exact H).
  destruct r as [|d r2]; [apply tok_ok_same; constructor; assumption|].
  repeat match goal with |- renamed_res _ _ _ (if ?x then _ else _) (if ?x then _ else _) => destruct x end; try (apply tok_ok_same; constructor; assumption).
  destruct r2 as [|n r2]; [apply comment_same; exact H|]. destruct (n =? c_rpar)%N; [er|apply comment_same; exact H].
Qed.

(** ** The tokenizer *)
Definition loop_same (x y : location * res (list token * str)) : Prop :=
  Rn (fst x) (fst y) /\ rres (fun a b => toks (fst a) (fst b) /\ snd a = snd b) (snd x) (snd y).
Lemma tokenize_loop_same : forall fuel l l' b, Rn l l' -> loop_same (tokenize_loop fuel l b) (tokenize_loop fuel l' b).
Proof.
  induction fuel as [|f IH]; intros l l' b H; [split; [exact H|exact I]|]. cbn [tokenize_loop].
  destruct b as [|c r]; [split; [exact H|split; [constructor|reflexivity]]|].
  pose proof (read_next_same _ _ (c :: r) false H) as K.
  destruct (read_next l (c :: r) false) as [[[t n]|]|e|p|], (read_next l' (c :: r) false) as [[[t' n']|]|e'|p'|]; try contradiction;
    try (split; [exact H|exact K]).
  - destruct K as (K & E). cbn in K, E. subst n'.
    destruct (IH _ _ (skipn n (c :: r)) (Rn_push_str (firstn n (c :: r)) _ _ H)) as (A & B).
    destruct (tokenize_loop f (loc_push_str l (firstn n (c :: r))) (skipn n (c :: r))) as [m [[ts rest]|e|p|]],
      (tokenize_loop f (loc_push_str l' (firstn n (c :: r))) (skipn n (c :: r))) as [m' [[ts' rest']|e'|p'|]]; try contradiction; try (split; [exact A|exact B]).
    split; [exact A|]. destruct B as (B1 & B2). split; [constructor; assumption|exact B2].
  - split; [exact H|split; [constructor|reflexivity]].
Qed.
Definition tks (t t' : tokenizer) : Prop := tk_max t = tk_max t' /\ tk_buf t = tk_buf t' /\ Rn (tk_loc t) (tk_loc t').
Definition step {S A} (s : S -> S -> Prop) (r : A -> A -> Prop) (x y : S * res A) : Prop := s (fst x) (fst y) /\ rres r (snd x) (snd y).
Lemma tokenize_same : forall t t', tks t t' -> step tks toks (tokenize t) (tokenize t').
Proof.
  intros [m b l] [m' b' l'] (E1 & E2 & H). cbn in E1, E2, H. subst m' b'. unfold tokenize. cbn [tk_buf tk_loc tk_max].
  destruct (tokenize_loop_same (S (length b)) _ _ b H) as (A & B).
  destruct (tokenize_loop (S (length b)) l b) as [k [[ts rest]|e|p|]], (tokenize_loop (S (length b)) l' b) as [k' [[ts' rest']|e'|p'|]]; try contradiction.
  - destruct B as (B1 & B2). cbn in B2. subst rest'. split; [repeat split; exact A || apply A|exact B1].
  - split; [repeat split; apply A|exact B].
  - split; [repeat split; apply A|exact B].
  - split; [repeat split; apply A|exact B].
Qed.
Lemma tk_push_str_same : forall t t' s, tks t t' -> step tks toks (tk_push_str t s) (tk_push_str t' s).
Proof.
  intros t t' s H. pose proof H as (E1 & E2 & K). unfold tk_push_str, over_capacity. rewrite <- E1, <- E2.
  destruct (_ && _)%bool.
  - split; [exact H|apply err_intro; exact K].
  - apply tokenize_same. repeat split; apply K.
Qed.
Lemma tk_flush_same : forall t t', tks t t' -> step tks toks (tk_flush t) (tk_flush t').
Proof.
  intros t t' H. pose proof H as (E1 & E2 & K). unfold tk_flush. rewrite <- E1, <- E2.
  pose proof (read_next_same _ _ (tk_buf t) true K) as N.
  destruct (read_next (tk_loc t) (tk_buf t) true) as [[[k n]|]|e|p|], (read_next (tk_loc t') (tk_buf t) true) as [[[k' n']|]|e'|p'|]; try contradiction;
    try (split; [exact H|exact N]).
  - destruct N as (N & E). cbn in N, E. subst n'. cbn [tk_buf tk_loc].
    pose proof (Rn_push_str (firstn n (tk_buf t)) _ _ K) as Q.
    destruct (skipn n (tk_buf t)).
    + split; [repeat split; apply Q|]. cbn. constructor; [exact N|]. constructor; [constructor; exact Q|constructor].
    + split; [repeat split; apply Q|reflexivity].
  - cbn [tk_buf tk_loc skipn firstn].
    destruct (tk_buf t).
    + split; [repeat split; apply K|]. cbn. constructor; [constructor; exact K|constructor].
    + split; [repeat split; apply K|reflexivity].
Qed.
Lemma tk_reset_same : forall t t', tks t t' -> tks (tk_reset t) (tk_reset t').
Proof. intros t t' (E1 & E2 & K). split; [exact E1|split; [reflexivity|apply Rn_reset; exact K]]. Qed.

(** ** Rules *)
Lemma bind_same : forall {A B} (r : A -> A -> Prop) (q : B -> B -> Prop) x x' f f',
  rres r x x' -> (forall a a', r a a' -> rres q (f a) (f' a')) -> rres q (bind x f) (bind x' f').
Proof. intros A B r q x x' f f' H K. destruct x, x'; try contradiction; cbn; try exact H. apply K. exact H. Qed.
Lemma name_same : forall t t', tok t t' -> tok_name t = tok_name t'.
Proof. intros t t' H. destruct H; reflexivity. Qed.
Lemma debug_same : forall t t', tok t t' -> tok_debug t = tok_debug t'.
Proof. intros t t' H. destruct H; reflexivity. Qed.
Definition blind (p : token -> bool) : Prop := forall t t', tok t t' -> p t = p t'.
Ltac bl := intros t t' H; destruct H; reflexivity.
Lemma bl_term : blind is_terminator. Proof. bl. Qed.
Lemma bl_triv : blind (fun t => is_gap_token t || is_comment t)%bool. Proof. bl. Qed.
Lemma skip_same : forall ts ts', toks ts ts' -> toks (skip_trivia ts) (skip_trivia ts').
Proof.
  intros ts ts' H. induction H as [|t t' r r' A B IH]; [constructor|]. cbn [skip_trivia]. rewrite <- (bl_triv _ _ A).
  destruct (_ || _)%bool; [exact IH|constructor; assumption].
Qed.
Definition rmi_rel (x y : str * option location * list token) : Prop :=
  fst (fst x) = fst (fst y) /\ opt2 Rn (snd (fst x)) (snd (fst y)) /\ toks (snd x) (snd y).
Lemma rmi_same : forall ts ts', toks ts ts' -> forall id o o', opt2 Rn o o' -> rmi_rel (rmi_loop id o ts) (rmi_loop id o' ts').
Proof.
  intros ts ts' H. induction H as [|t t' r r' A B IH]; intros id o o' K; [repeat split; [exact K|constructor]|].
  assert (Z : rmi_rel (id, o, t :: r) (id, o', t' :: r')) by (repeat split; [exact K|constructor; assumption]).
  destruct A; cbn [rmi_loop]; try exact Z; apply IH; [|exact K].
  destruct o, o'; try contradiction; assumption.
Qed.
Lemma read_meta_same : forall ts ts', toks ts ts' -> rmi_rel (read_meta_identifier ts) (read_meta_identifier ts').
Proof.
  intros ts ts' H. unfold read_meta_identifier. pose proof (rmi_same _ _ (skip_same _ _ H) [] None None I) as (A & B & C).
  destruct (rmi_loop [] None (skip_trivia ts)) as [[id o] n], (rmi_loop [] None (skip_trivia ts')) as [[id' o'] n']. cbn in *. subst id'.
  repeat split; assumption.
Qed.
Definition closed_rel (x y : option (list token * list token)) : Prop := opt2 (fun a b => toks (fst a) (fst b) /\ toks (snd a) (snd b)) x y.
Lemma find_close_same : forall p q, blind p -> blind q -> forall ts ts', toks ts ts' -> forall d, closed_rel (find_close p q d ts) (find_close p q d ts').
Proof.
  intros p q P Q ts ts' H. induction H as [|t t' r r' A B IH]; intros d; [exact I|]. cbn [find_close].
  rewrite <- (P _ _ A), <- (Q _ _ A).
  assert (K : forall d, closed_rel (match find_close p q d r with Some (a, b) => Some (t :: a, b) | None => None end)
      (match find_close p q d r' with Some (a, b) => Some (t' :: a, b) | None => None end)).
  { intros e. specialize (IH e). destruct (find_close p q e r) as [[a b]|], (find_close p q e r') as [[a' b']|]; try contradiction; [|exact I].
    destruct IH as (X & Y). split; [constructor; assumption|exact Y]. }
  destruct (p t); [apply K|]. destruct (q t); [|apply K]. destruct d; [|apply K]. split; [constructor|exact B].
Qed.
Lemma last_same : forall ts ts', toks ts ts' ->
  R (match rev ts with t :: _ => tok_loc t | [] => loc_new (of_string "<unknown>") end)
    (match rev ts' with t :: _ => tok_loc t | [] => loc_new (of_string "<unknown>") end).
Proof.
  intros ts ts' H. assert (K : toks (rev ts) (rev ts')).
  { induction H; [constructor|]. cbn. apply Forall2_app; [assumption|constructor; [assumption|constructor]]. }
  destruct K as [|t t' r r' A B]; [right; split; reflexivity|apply Rn_R, tok_Rn; exact A].
Qed.
Lemma toks_rev : forall ts ts', toks ts ts' -> toks (rev ts) (rev ts').
Proof. intros ts ts' H. induction H; [constructor|]. cbn. apply Forall2_app; [assumption|constructor; [assumption|constructor]]. Qed.
Definition with_rest {A} (r : A -> A -> Prop) (x y : A * list token) : Prop := r (fst x) (fst y) /\ toks (snd x) (snd y).
Definition lfactor (x y : factor) : Prop := f_rep x = f_rep y /\ prim (f_prim x) (f_prim y).

Lemma bl_sopt : blind is_start_option. Proof. bl. Qed.
Lemma bl_eopt : blind is_end_option. Proof. bl. Qed.
Lemma bl_srep : blind is_start_repeat. Proof. bl. Qed.
Lemma bl_erep : blind is_end_repeat. Proof. bl. Qed.
Lemma bl_sgrp : blind is_start_group. Proof. bl. Qed.
Lemma bl_egrp : blind is_end_group. Proof. bl. Qed.
Lemma bl_def : blind is_defining_symbol. Proof. bl. Qed.
Lemma err_tok : forall t t' m m', tok t t' -> m = m' -> err (Error_ (tok_loc t) m) (Error_ (tok_loc t') m').
Proof. intros t t' m m' H <-. apply err_intro, tok_Rn. exact H. Qed.
Lemma term_intro : forall f f' o o', lfactor f f' -> opt2 lfactor o o' -> lterm (Term f o) (Term f' o').
Proof.
  intros [n p] [n' p'] o o' (E & H) K. cbn in E, H. subst n'. destruct o as [[m q]|], o' as [[m' q']|]; try contradiction.
  - destruct K as (E & K). cbn in E, K. subst m'. constructor; assumption.
  - constructor. exact H.
Qed.
Definition descent (f : nat) : Prop := forall all all' ts ts', toks all all' -> toks ts ts' ->
  rres defs (read_definition_list f all ts) (read_definition_list f all' ts') /\
  rres (with_rest single) (read_single_definition f all ts) (read_single_definition f all' ts') /\
  rres (with_rest lterm) (read_syntactic_term f all ts) (read_syntactic_term f all' ts') /\
  rres (with_rest lfactor) (read_syntactic_factor f all ts) (read_syntactic_factor f all' ts') /\
  rres (with_rest prim) (read_syntactic_primary f all ts) (read_syntactic_primary f all' ts').
Lemma enclosed_same : forall f p q t t' r r' (k k' : definition_list -> primary), descent f -> blind p -> blind q -> tok t t' -> toks r r' ->
  (forall d d', defs d d' -> prim (k d) (k' d')) ->
  rres (with_rest prim)
   (bind (match find_close p q 0 r with
        | Some (sub, next) => bind (read_definition_list f sub sub) (fun d => Ok (d, next))
        | None => Err (Error_ (tok_loc t) (MNotClosed (tok_name t) (tok_debug t))) end) (fun '(d, next) => Ok (k d, next)))
   (bind (match find_close p q 0 r' with
        | Some (sub, next) => bind (read_definition_list f sub sub) (fun d => Ok (d, next))
        | None => Err (Error_ (tok_loc t') (MNotClosed (tok_name t') (tok_debug t'))) end) (fun '(d, next) => Ok (k' d, next))).
Proof.
  intros f p q t t' r r' k k' D P Q T H K. apply bind_same with (r := with_rest defs).
  - pose proof (find_close_same p q P Q r r' H 0) as C.
    destruct (find_close p q 0 r) as [[a b]|], (find_close p q 0 r') as [[a' b']|]; try contradiction.
    + destruct C as (C1 & C2). cbn in C1, C2. apply bind_same with (r := defs); [apply (D a a' a a' C1 C1)|].
      intros d d' E. split; assumption.
    + apply err_tok; [exact T|]. rewrite (name_same _ _ T), (debug_same _ _ T). reflexivity.
  - intros [d n] [d' n'] (A & B). split; [apply K; exact A|exact B].
Qed.
Lemma descent_same : forall f, descent f.
Proof.
  induction f as [|f IH]; intros all all' ts ts' HA H; [repeat split; exact I|].
  pose proof (IH _ _ _ _ HA H) as (_ & I2 & I3 & I4 & _). split; [|split; [|split; [|split]]].
  - cbn [read_definition_list]. apply bind_same with (1 := I2). intros [sd n] [sd' n'] (A & B). cbn in A, B.
    apply skip_same in B. destruct B as [|t t' r r' T B]; [repeat constructor; exact A|].
    rewrite <- (bl_term _ _ T). destruct (is_terminator t); [repeat constructor; exact A|].
    apply bind_same with (r := defs).
    + apply (IH _ _ _ _ HA). destruct T; try exact B; constructor; try exact B; constructor; assumption.
    + intros d d' D. constructor; assumption.
  - cbn [read_single_definition]. apply bind_same with (1 := I3). intros [tm n] [tm' n'] (A & B). cbn in A, B.
    assert (O : single [tm] [tm']) by (repeat constructor; exact A).
    apply skip_same in B. destruct B as [|t t' r r' T B]; [split; [exact O|constructor]|].
    assert (Z : forall m, err (Error_ (tok_loc t) m) (Error_ (tok_loc t') m)) by (intros m; apply err_tok; [exact T|reflexivity]).
    assert (Y : with_rest single ([tm], t :: r) ([tm'], t' :: r')) by (split; [exact O|constructor; assumption]).
    destruct T; cbn [is_terminator]; try exact Y; try apply Z.
    apply bind_same with (r := with_rest single); [apply (IH _ _ _ _ HA B)|].
    intros [a b] [a' b'] (C & E). split; [constructor; assumption|exact E].
  - cbn [read_syntactic_term]. apply bind_same with (1 := I4). intros [fa n] [fa' n'] (A & B). cbn in A, B.
    assert (O : lterm (Term fa None) (Term fa' None)) by (apply term_intro; [exact A|exact I]).
    apply skip_same in B. destruct B as [|t t' r r' T B]; [split; [exact O|constructor]|].
    assert (Y : with_rest lterm (Term fa None, t :: r) (Term fa' None, t' :: r')) by (split; [exact O|constructor; assumption]).
    destruct T; try exact Y. apply bind_same with (r := with_rest lfactor); [apply (IH _ _ _ _ HA B)|].
    intros [a b] [a' b'] (C & E). split; [apply term_intro; [exact A|exact C]|exact E].
  - cbn [read_syntactic_factor]. pose proof (skip_same _ _ H) as K.
    apply bind_same with (r := with_rest (@eq N)).
    + destruct K as [|t t' r r' T B]; [split; [reflexivity|constructor]|].
      assert (Y : with_rest (@eq N) (1%N, t :: r) (1%N, t' :: r')) by (split; [reflexivity|constructor; assumption]).
      destruct T; try exact Y. destruct (parse_u32 s); [|apply err_intro; assumption].
      apply skip_same in B. destruct B as [|t t' r0 r0' T B]; [reflexivity|].
      assert (Z : forall m, err (Error_ (tok_loc t) m) (Error_ (tok_loc t') m)) by (intros m; apply err_tok; [exact T|reflexivity]).
      destruct T; try apply Z. split; [reflexivity|apply skip_same; exact B].
    + intros [n r] [n' r'] (E & B). cbn in E, B. subst n'.
      apply bind_same with (r := with_rest prim); [apply (IH _ _ _ _ HA B)|].
      intros [p x] [p' x'] (C & D). split; [split; [reflexivity|exact C]|exact D].
  - cbn [read_syntactic_primary]. pose proof (skip_same _ _ H) as K.
    destruct K as [|t t' r r' T B]; [split; [constructor; apply last_same; exact HA|constructor]|].
    assert (Y : with_rest prim (PEmpty (tok_loc t), t :: r) (PEmpty (tok_loc t'), t' :: r'))
      by (split; [constructor; apply Rn_R, tok_Rn; exact T|constructor; assumption]).
    assert (E : match r with t :: _ => is_end_group t | [] => false end = match r' with t :: _ => is_end_group t | [] => false end)
      by (destruct B as [|x x' y y' X B]; [reflexivity|apply bl_egrp; exact X]).
    destruct T as [l l' L|l l' L|l l' L|l l' c L|l l' L|l l' c L|l l' s L|l l' s L|l l' s L|l l' s L|l l' L|l l' L|l l' L|l l' s L|l l' s q L|l l' s L|l l' s L|l l' s L|l l' s L]; try exact Y.
    + rewrite <- E. destruct (_ && _)%bool; [er|]. apply (enclosed_same f is_start_option is_end_option (TStartOption l s) (TStartOption l' s) r r' (POptional l) (POptional l') IH bl_sopt bl_eopt); [constructor; exact L|exact B|].
      intros d d' D. constructor; [apply Rn_R; exact L|exact D].
    + rewrite <- E. destruct (_ && _)%bool; [er|]. apply (enclosed_same f is_start_repeat is_end_repeat (TStartRepeat l s) (TStartRepeat l' s) r r' (PRepeated l) (PRepeated l') IH bl_srep bl_erep); [constructor; exact L|exact B|].
      intros d d' D. constructor; [apply Rn_R; exact L|exact D].
    + apply (enclosed_same f is_start_group is_end_group (TStartGroup l) (TStartGroup l') r r' (PGrouped l) (PGrouped l') IH bl_sgrp bl_egrp); [constructor; exact L|exact B|].
      intros d d' D. constructor; [apply Rn_R; exact L|exact D].
    + assert (X : toks (TMeta l s :: r) (TMeta l' s :: r')) by (constructor; [constructor; exact L|exact B]).
      pose proof (read_meta_same _ _ X) as (P & _ & Q).
      destruct (read_meta_identifier (TMeta l s :: r)) as [[id o] n], (read_meta_identifier (TMeta l' s :: r')) as [[id' o'] n'].
      cbn in P, Q. subst id'. split; [constructor; [apply Rn_R; exact L|reflexivity]|exact Q].
    + split; [constructor; apply Rn_R; exact L|exact B].
    + split; [constructor; apply Rn_R; exact L|exact B].
Qed.
Lemma toks_length : forall ts ts', toks ts ts' -> length ts = length ts'.
Proof. intros ts ts' H. induction H; cbn; congruence. Qed.
Lemma final_same : forall ts ts', toks ts ts' -> one_final_terminator ts = one_final_terminator ts'.
Proof.
  intros ts ts' H. unfold one_final_terminator. destruct (toks_rev _ _ H) as [|t t' r r' T B]; [reflexivity|].
  rewrite (bl_term _ _ T). f_equal. f_equal. induction B as [|x x' y y' X B IB]; [reflexivity|]. cbn. rewrite (bl_term _ _ X), IB. reflexivity.
Qed.
Notation ropt := (renamed_option n1 n2).
Notation rrules := (renamed_rules n1 n2).
Lemma build_same : forall ts ts', toks ts ts' -> rres ropt (build_syntax_rule ts) (build_syntax_rule ts').
Proof.
  intros ts ts' H. unfold build_syntax_rule, rd_fuel. rewrite <- (final_same _ _ H), <- (toks_length _ _ H).
  destruct (negb (one_final_terminator ts)); [reflexivity|].
  pose proof (read_meta_same _ _ H) as (P & O & Q).
  destruct (read_meta_identifier ts) as [[id o] n], (read_meta_identifier ts') as [[id' o'] n']. cbn in P, O, Q. subst id'.
  apply skip_same in Q. destruct Q as [|t t' r r' T B]; [reflexivity|].
  rewrite <- (bl_term _ _ T), <- (bl_def _ _ T), <- (name_same _ _ T).
  destruct o as [l|], o' as [l'|]; try contradiction.
  - destruct (negb (is_defining_symbol t)); [apply err_tok; [exact T|reflexivity]|]. destruct id; [reflexivity|].
    apply bind_same with (r := defs); [apply (descent_same _ _ _ _ _ H B)|].
    intros d d' D. split; [apply Rn_R; exact O|split; [reflexivity|exact D]].
  - destruct (is_terminator t); [exact I|apply err_tok; [exact T|reflexivity]].
Qed.

(** ** The lexer *)
Lemma opt_list_same : forall o o', ropt o o' -> rrules (opt_list o) (opt_list o').
Proof. intros [r|] [r'|] H; try contradiction; [constructor; [exact H|constructor]|constructor]. Qed.
Lemma append_same : forall new new', toks new new' -> forall cur cur', toks cur cur' -> step toks rrules (append_loop cur new) (append_loop cur' new').
Proof.
  intros new new' H. induction H as [|t t' r r' T B IH]; intros cur cur' C; [split; [exact C|constructor]|]. cbn [append_loop].
  assert (C' : toks (cur ++ [t]) (cur' ++ [t'])) by (apply Forall2_app; [exact C|constructor; [exact T|constructor]]).
  rewrite <- (bl_term _ _ T). destruct (is_terminator t); [|apply IH; exact C'].
  pose proof (build_same _ _ C') as K.
  destruct (build_syntax_rule (cur ++ [t])) as [o|e|p|], (build_syntax_rule (cur' ++ [t'])) as [o'|e'|p'|]; try contradiction; try (split; [exact C'|exact K]).
  destruct (IH [] [] (Forall2_nil _)) as (X & Y).
  destruct (append_loop [] r) as [c [rs|e|p|]], (append_loop [] r') as [c' [rs'|e'|p'|]]; try contradiction; try (split; [exact X|exact Y]).
  split; [exact X|]. apply Forall2_app; [apply opt_list_same; exact K|exact Y].
Qed.
Definition lxs (x y : lexer) : Prop := tks (lx_tk x) (lx_tk y) /\ toks (lx_tokens x) (lx_tokens y).
Lemma lx_append_same : forall x y a b, lxs x y -> step tks toks a b -> step lxs rrules (lx_append x (fst a) (snd a)) (lx_append y (fst b) (snd b)).
Proof.
  intros x y [t r] [t' r'] (A & B) (C & D). cbn [fst snd] in *. unfold lx_append.
  destruct r as [ts|e|p|], r' as [ts'|e'|p'|]; try contradiction; try (split; [split; assumption|exact D]).
  destruct (append_same _ _ D _ _ B) as (X & Y).
  destruct (append_loop (lx_tokens x) ts), (append_loop (lx_tokens y) ts'). split; [split; [exact C|exact X]|exact Y].
Qed.
Lemma first_same : forall r r', rres rrules r r' -> rres ropt (first_rule r) (first_rule r').
Proof. intros r r' H. apply bind_same with (1 := H). intros a a' K. destruct K; [exact I|assumption]. Qed.
Lemma lx_push_str_same : forall x y s, lxs x y -> step lxs rrules (lx_push_str x s) (lx_push_str y s).
Proof.
  intros x y s H. unfold lx_push_str. pose proof (lx_append_same x y _ _ H (tk_push_str_same _ _ s (proj1 H))) as K.
  destruct (tk_push_str (lx_tk x) s), (tk_push_str (lx_tk y) s). exact K.
Qed.
Lemma lx_push_same : forall x y c, lxs x y -> step lxs ropt (lx_push x c) (lx_push y c).
Proof.
  intros x y c H. unfold lx_push, tk_push. pose proof (lx_append_same x y _ _ H (tk_push_str_same _ _ [c] (proj1 H))) as K.
  destruct (tk_push_str (lx_tk x) [c]) as [t r], (tk_push_str (lx_tk y) [c]) as [t' r']. cbn [fst snd] in K.
  destruct (lx_append x t r), (lx_append y t' r'). destruct K as (K1 & K2). split; [exact K1|apply first_same; exact K2].
Qed.
Lemma lx_flush_same : forall x y, lxs x y -> step lxs ropt (lx_flush x) (lx_flush y).
Proof.
  intros x y H. unfold lx_flush. pose proof (lx_append_same x y _ _ H (tk_flush_same _ _ (proj1 H))) as K.
  destruct (tk_flush (lx_tk x)) as [t r], (tk_flush (lx_tk y)) as [t' r']. cbn [fst snd] in K.
  destruct (lx_append x t r), (lx_append y t' r'). destruct K as (K1 & K2). split; [exact K1|apply first_same; exact K2].
Qed.
Lemma lx_new_same : forall max, lxs (lx_new n1 max) (lx_new n2 max).
Proof. intros max. split; [split; [reflexivity|split; [reflexivity|exact Rn_new]]|constructor]. Qed.
Lemma lx_reset_same : forall x y, lxs x y -> lxs (lx_reset x) (lx_reset y).
Proof. intros x y (A & B). split; [apply tk_reset_same; exact A|constructor]. Qed.
Lemma observations_same : forall hs x y, lxs x y -> Forall2 (renamed_observation n1 n2) (observations x hs) (observations y hs).
Proof.
  induction hs as [|h hs IH]; intros x y H; [constructor|]. cbn [observations]. destruct h as [c|s| |]; constructor; cbn [hobserve hstep]; try apply IH.
  - apply (lx_push_same _ _ c H).
  - apply (lx_push_same _ _ c H).
  - apply (lx_push_str_same _ _ s H).
  - apply (lx_push_str_same _ _ s H).
  - apply (lx_flush_same _ _ H).
  - apply (lx_flush_same _ _ H).
  - exact I.
  - apply lx_reset_same. exact H.
Qed.
Lemma parse_str_same : forall s, rres rrules (parse_str n1 s) (parse_str n2 s).
Proof.
  intros s. unfold parse_str. destruct (lx_push_str_same _ _ s (lx_new_same 0)) as (A & B).
  destruct (lx_push_str (lx_new n1 0) s) as [x r], (lx_push_str (lx_new n2 0) s) as [y r']. cbn [fst snd] in A, B.
  apply bind_same with (1 := B). intros rs rs' K. destruct (lx_flush_same _ _ A) as (_ & D).
  destruct (lx_flush x) as [? o], (lx_flush y) as [? o']. apply bind_same with (1 := D).
  intros q q' Q. apply Forall2_app; [exact K|apply opt_list_same; exact Q].
Qed.

(** ** The syntax *)
Lemma R_same : forall l l', R l l' -> l_lines l = l_lines l' /\ l_columns l = l_columns l'.
Proof. intros l l' [(_ & ->)|(-> & ->)]; split; reflexivity. Qed.
Lemma nth_same : forall rs rs', rrules rs rs' -> forall i, ropt (nth_error rs i) (nth_error rs' i).
Proof. intros rs rs' H. induction H; intros [|i]; cbn; auto. Qed.
Lemma register_same : forall all all', rrules all all' -> forall rest rest', rrules rest rest' -> forall i names index,
  rres eq (register_rules all i rest names index) (register_rules all' i rest' names index).
Proof.
  intros all all' HA rest rest' H. induction H as [|r r' q q' T B IH]; intros i names index; [reflexivity|]. cbn [register_rules].
  destruct T as (L & E & D). rewrite <- E.
  destruct (negb _); [reflexivity|]. destruct (lookup (keyed (r_id r)) names); [|apply IH].
  destruct (lookup (keyed (r_id r)) index) as [j|]; [|reflexivity].
  pose proof (nth_same _ _ HA j) as K. destruct (nth_error all j) as [d|], (nth_error all' j) as [d'|]; try contradiction; [|reflexivity].
  destruct K as (K & _). destruct (R_same _ _ K) as (-> & ->). split; [reflexivity|exact L].
Qed.
Lemma is_def_same : forall {A} (index : list (str * A)) p p', prim p p' -> rres eq (is_def index p) (is_def index p').
Proof.
  intros A index p p' H. destruct H as [| | |l l' id id' L E| | |]; try reflexivity. subst id'. cbn.
  destruct (lookup (keyed id) index); [reflexivity|]. split; [reflexivity|exact L].
Qed.
Lemma defined_same : forall {A} (index : list (str * A)) d d', defs d d' -> rres eq (is_defined index d) (is_defined index d').
Proof.
  intros A index. induction d as [|s d IH]; intros d' H; inversion H as [|s0 s' d0 d0' HS HD]; subst; [reflexivity|].
  unfold is_defined. cbn [try_each]. apply bind_same with (r := eq); [|intros _ _ _; apply IH; exact HD].
  clear IH HD H. revert s' HS. induction s as [|t s IH]; intros s' H; inversion H as [|t0 t' s0 s0' HT HS]; subst; [reflexivity|].
  cbn [try_each]. apply bind_same with (r := eq); [|intros _ _ _; apply IH; exact HS].
  destruct HT as [n p p' P|n p p' m q q' P Q]; cbn [t_factor t_exc f_prim]; (apply bind_same with (r := eq); [apply is_def_same; exact P|intros _ _ _]).
  - reflexivity.
  - apply is_def_same. exact Q.
Qed.
Lemma all_defined_same : forall {A} (index : list (str * A)) rs rs', rrules rs rs' -> rres eq (all_defined rs index) (all_defined rs' index).
Proof.
  intros A index rs rs' H. induction H as [|r r' q q' T B IH]; [reflexivity|]. unfold all_defined. cbn [try_each].
  apply bind_same with (r := eq); [apply defined_same, T|intros _ _ _; exact IH].
Qed.
Lemma new_syntax_same : forall rs rs', rrules rs rs' -> rres (renamed_syntax n1 n2) (new_syntax rs) (new_syntax rs').
Proof.
  intros rs rs' H. unfold new_syntax. apply bind_same with (1 := register_same _ _ H _ _ H 0 [] []).
  intros [names index] p <-. apply bind_same with (1 := all_defined_same index _ _ H). intros _ _ _.
  split; [reflexivity|split; [reflexivity|exact H]].
Qed.

(** ** Reading bytes *)
Definition decs (C : codec) (d d' : decoder C) : Prop :=
  d_enc C d = d_enc C d' /\ d_state C d = d_state C d' /\ d_stop C d = false /\ d_stop C d' = false /\ d_buf C d = d_buf C d' /\ Rn (d_loc C d) (d_loc C d').
Lemma loop_unstopped : forall C fuel st bs fl st' out n b, convert_loop C fuel false st bs fl = Ok (st', out, n, b) -> b = false.
Proof.
  intros C. induction fuel as [|f IH]; intros st bs fl st' out n b; cbn; [discriminate|].
  destruct (dc_call C st bs fl) as [[[[e r] o] g] s2]. rewrite andb_false_r. destruct (e || Nat.eqb r 0)%bool; [intros E; injection E; auto|].
  destruct (convert_loop C f false s2 (skipn r bs) fl) as [[[[s3 o3] n3] b3]|e3|p3|] eqn:K; cbn; try discriminate.
  intros E. injection E as <- <- <- <-. exact (IH _ _ _ _ _ _ _ K).
Qed.
Lemma loop_no_err : forall C fuel stop st bs fl e, convert_loop C fuel stop st bs fl <> Err e.
Proof.
  intros C. induction fuel as [|f IH]; intros stop st bs fl e; cbn; [discriminate|].
  destruct (dc_call C st bs fl) as [[[[x r] o] g] s2]. destruct (g && stop)%bool; [discriminate|]. destruct (x || Nat.eqb r 0)%bool; [discriminate|].
  destruct (convert_loop C f stop s2 (skipn r bs) fl) as [[[[s3 o3] n3] b3]|e3|p3|] eqn:K; cbn; try discriminate. exfalso. exact (IH _ _ _ _ _ K).
Qed.
Lemma convert_same : forall C d d' bytes fl, decs C d d' -> step (decs C) eq (convert C d bytes fl) (convert C d' bytes fl).
Proof.
  intros C d d' bytes fl H. pose proof H as (E1 & E2 & S1 & S2 & E3 & L). unfold convert. rewrite <- E1, <- E2, <- E3, S1, S2.
  destruct (convert_loop C (length (d_buf C d ++ bytes) + 2) false (d_state C d) (d_buf C d ++ bytes) fl) as [[[[st out] n] b]|e|p|] eqn:K.
  - rewrite (loop_unstopped _ _ _ _ _ _ _ _ _ K). split; [|reflexivity].
    split; [reflexivity|split; [reflexivity|split; [reflexivity|split; [reflexivity|split; [reflexivity|]]]]]. cbn. apply Rn_push_str. exact L.
  - exfalso. exact (loop_no_err _ _ _ _ _ _ _ K).
  - split; [exact H|reflexivity].
  - split; [exact H|reflexivity].
Qed.
Definition loop_state (C : codec) (x y : decoder C * lexer * list rule) : Prop :=
  decs C (fst (fst x)) (fst (fst y)) /\ lxs (snd (fst x)) (snd (fst y)) /\ rrules (snd x) (snd y).
Lemma parse_loop_same : forall C err chunks d d' x y, decs C d d' -> lxs x y ->
  rres (loop_state C) (parse_loop C chunks err d x) (parse_loop C chunks err d' y).
Proof.
  intros C err. induction chunks as [|c r IH]; intros d d' x y D X; cbn [parse_loop].
  - destruct err; [apply err_intro; apply X|]. split; [exact D|split; [exact X|constructor]].
  - destruct (convert_same C _ _ c false D) as (A & B). unfold dec_push.
    destruct (convert C d c false) as [e u], (convert C d' c false) as [e' u']. cbn [fst snd] in A, B.
    apply bind_same with (1 := B). intros input i' <-. destruct (lx_push_str_same _ _ input X) as (P & Q).
    destruct (lx_push_str x input) as [z w], (lx_push_str y input) as [z' w']. cbn [fst snd] in P, Q.
    apply bind_same with (1 := Q). intros rs rs' RS. apply bind_same with (1 := IH _ _ _ _ A P).
    intros [[d2 x2] r2] [[d3 x3] r3] (F & G & K). split; [exact F|split; [exact G|]]. apply Forall2_app; assumption.
Qed.
Lemma lex_parse_same : forall C enc max b, rres rrules (lex_parse C n1 enc max b) (lex_parse C n2 enc max b).
Proof.
  intros C enc max b. unfold lex_parse.
  assert (D : decs C (dec_new C n1 enc false) (dec_new C n2 enc false)) by (repeat split).
  apply bind_same with (1 := parse_loop_same C (bs_err b) (bs_chunks b) _ _ _ _ D (lx_new_same max)).
  intros [[d x] rs] [[d' x'] rs'] (F & G & K). cbn [fst snd] in F, G, K.
  destruct (convert_same C _ _ [] true F) as (A & B). unfold dec_flush.
  destruct (convert C d [] true) as [e u], (convert C d' [] true) as [e' u']. cbn [fst snd] in A, B.
  apply bind_same with (1 := B). intros input i' <-. destruct (lx_push_str_same _ _ input G) as (P & Q).
  destruct (lx_push_str x input) as [z w], (lx_push_str x' input) as [z' w']. cbn [fst snd] in P, Q.
  apply bind_same with (1 := Q). intros r2 r2' R2. destruct (lx_flush_same _ _ P) as (_ & V).
  destruct (lx_flush z) as [? o], (lx_flush z') as [? o']. cbn [fst snd] in V.
  apply bind_same with (1 := V). intros q q' HQ. repeat apply Forall2_app; try assumption. apply opt_list_same. exact HQ.
Qed.
Lemma parse_stream_same : forall for_label label max b, rres rrules (parse_stream for_label n1 label max b) (parse_stream for_label n2 label max b).
Proof.
  intros fl label max b. unfold parse_stream, decoder_new. destruct (fl label) as [C|]; cbn [bind projT1].
  - apply lex_parse_same.
  - apply err_intro. exact Rn_new.
Qed.
Lemma syntax_from_same : forall for_label label max b,
  rres (renamed_syntax n1 n2) (syntax_from for_label n1 label max b) (syntax_from for_label n2 label max b).
Proof. intros fl label max b. apply bind_same with (1 := parse_stream_same fl label max b). intros rs rs' H. apply new_syntax_same. exact H. Qed.
End Names.
