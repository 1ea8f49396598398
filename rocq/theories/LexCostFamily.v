(** Texts whose rules cost the square of their length however they are cut into pieces. *)
From Coq Require Import String List NArith Arith Bool Lia Psatz.
From Verif Require Import Base Ast Tokenizer Lex LexCost SpecText TextFacts SpecTok SpecLex TokFacts TokRun LexRun GramFacts LexCostFacts.
Import ListNotations.
Open Scope nat_scope.

(** ** The first rule is built, whatever the pieces *)
Definition unended (ts : list token) : Prop := Forall (fun t => is_terminator t = false) ts.

Lemma append_built : forall pre cur t post, unended pre -> is_terminator t = true ->
  build_cost (cur ++ pre ++ [t]) <= append_cost cur (pre ++ t :: post).
Proof.
  induction pre as [|x pre IH]; intros cur t post Hu Ht; cbn [app append_cost].
  - rewrite Ht. lia.
  - inversion Hu as [|? ? Hx Hu2]; subst. rewrite Hx.
    specialize (IH (cur ++ [x]) t post Hu2 Ht). rewrite <- app_assoc in IH. cbn [app] in IH. lia.
Qed.
Lemma append_unended : forall new cur, unended new -> append_loop cur new = (cur ++ new, Ok []).
Proof.
  induction new as [|x new IH]; intros cur Hu; cbn [append_loop]; [rewrite app_nil_r; reflexivity|].
  inversion Hu as [|? ? Hx Hu2]; subst. rewrite Hx, IH; [|exact Hu2]. rewrite <- app_assoc. reflexivity.
Qed.

Lemma feed_built : forall ss tk cur tk' ts tk2 ts2 pre t post,
  tk_feed tk ss = (tk', Ok ts) -> tk_flush tk' = (tk2, Ok ts2) ->
  ts ++ ts2 = pre ++ t :: post -> unended pre -> is_terminator t = true ->
  build_cost (cur ++ pre ++ [t]) <= pieces_cost (Lx tk cur) ss.
Proof.
  induction ss as [|s ss IH]; intros tk cur tk' ts tk2 ts2 pre t post Hf Hfl Heq Hu Ht.
  - cbn [tk_feed] in Hf. injection Hf as <- <-. cbn [app] in Heq. subst ts2.
    cbn [pieces_cost]. unfold lx_flush_cost. cbn [lx_tk]. rewrite Hfl. cbn [snd lx_append_cost lx_tokens].
    pose proof (append_built pre cur t post Hu Ht). lia.
  - cbn [tk_feed] in Hf. cbn [pieces_cost]. unfold lx_push_cost, lx_push_str. cbn [lx_tk].
    destruct (tk_push_str tk s) as (tk1 & [new| | |]) eqn:E; try discriminate. cbn [snd lx_append_cost lx_append lx_tokens].
    destruct (tk_feed tk1 ss) as (tk3 & [ts3| | |]) eqn:E3; try discriminate.
    injection Hf as <- <-. rewrite <- app_assoc in Heq.
    apply app_eq_app in Heq as (x & [(-> & Hx)|(-> & Hx)]).
    + destruct x as [|y x].
      * rewrite app_nil_r in *. cbn [app] in Hx.
        rewrite (append_unended pre cur Hu).
        specialize (IH tk1 (cur ++ pre) tk3 ts3 tk2 ts2 [] t post E3 Hfl (eq_sym Hx) (Forall_nil _) Ht).
        cbn [app] in IH. rewrite <- app_assoc in IH. lia.
      * cbn [app] in Hx. injection Hx as <- _.
        pose proof (append_built pre cur t x Hu Ht). lia.
    + apply Forall_app in Hu as (Hu1 & Hu2).
      rewrite (append_unended new cur Hu1).
      specialize (IH tk1 (cur ++ new) tk3 ts3 tk2 ts2 x t post E3 Hfl Hx Hu2 Ht).
      rewrite <- app_assoc in IH. rewrite <- app_assoc. lia.
Qed.

Lemma pieces_built : forall name ss pre t post,
  lexes (loc_new name) (concat ss) (pre ++ t :: post) -> unended pre -> is_terminator t = true ->
  build_cost (pre ++ [t]) <= pieces_cost (lx_new name 0%N) ss.
Proof.
  intros name ss pre t post H Hu Ht. apply tokens_lexes in H. unfold tokens_of in H.
  destruct (tk_feed (tk_new name 0%N) ss) as (tk & [ts| | |]) eqn:E; try discriminate. cbn [bind] in H.
  destruct (tk_flush tk) as (tk2 & [ts2| | |]) eqn:E2; try discriminate. cbn [bind] in H.
  injection H as H. exact (feed_built ss _ [] tk ts tk2 ts2 pre t post E E2 H Hu Ht).
Qed.

(** ** Brackets inside brackets *)

(** ['b'] in [n] pairs of round brackets. *)
Fixpoint bracketed (n : nat) : str :=
  match n with
  | O => [c_squote; 98%N; c_squote]
  | S n => c_lpar :: bracketed n ++ [c_rpar]
  end.

Lemma lexes_one : forall l t rest ts, valid_tok t -> tok_loc t = l -> follows t (hd_error rest) ->
  lexes (loc_push_str l (tok_text t)) rest ts -> lexes l (tok_text t ++ rest) (t :: ts).
Proof. intros l t rest ts Hv Hl Hf H. eapply lexes_tok; eauto. apply push_str_reaches. Qed.

Lemma bracketed_lexes : forall n rest (K : list token -> Prop),
  (forall l, exists ts, lexes l rest ts /\ K ts) ->
  forall l, exists w ns ts, word w /\ nest w n ns /\ lexes l (bracketed n ++ rest) (ns ++ ts) /\ K ts.
Proof.
  induction n as [|n IH]; intros rest K HK l.
  - destruct (HK (loc_push_str l [c_squote; 98%N; c_squote])) as (ts & Hts & Hk).
    exists (TTerminal l [98%N] c_squote), [TTerminal l [98%N] c_squote], ts.
    split; [exact I|]. split; [constructor|]. split; [|exact Hk].
    apply (lexes_one l (TTerminal l [98%N] c_squote)); [|reflexivity|destruct (hd_error rest); exact I|exact Hts].
    cbn. split; [left; reflexivity|]. split; [discriminate|].
    split; [constructor; [unfold printable; lia|constructor]|]. intros [H|[]]. discriminate.
  - set (l1 := loc_push_str l [c_lpar]).
    destruct (IH (c_rpar :: rest) (fun ts => exists l2 ts2, ts = TEndGroup l2 :: ts2 /\ K ts2)) with (l := l1)
      as (w & ns & ts & Hw & Hn & Hlex & (l2 & ts2 & -> & Hk)).
    { intros l2. destruct (HK (loc_push_str l2 [c_rpar])) as (ts & Hts & Hk).
      exists (TEndGroup l2 :: ts). split; [|exists l2, ts; split; [reflexivity|exact Hk]].
      apply (lexes_one l2 (TEndGroup l2)); [exact I|reflexivity|destruct (hd_error rest); exact I|exact Hts]. }
    exists w, (TStartGroup l :: ns ++ [TEndGroup l2]), ts2.
    split; [exact Hw|]. split; [constructor; exact Hn|]. split; [|exact Hk].
    cbn [bracketed app]. rewrite <- !app_assoc. cbn [app].
    apply (lexes_one l (TStartGroup l)); [exact I|reflexivity| |exact Hlex].
    destruct n; cbn; repeat split; discriminate.
Qed.

Lemma build_nest : forall w n ns l1 s l2 l3 c, word w -> nest w n ns ->
  n * n <= build_cost (TMeta l1 s :: TDefining l2 :: ns ++ [TTerminator l3 c]).
Proof.
  intros w n ns l1 s l2 l3 c Hw Hn. set (all := TMeta l1 s :: TDefining l2 :: ns ++ [TTerminator l3 c]).
  unfold build_cost.
  assert (E : exists id, read_meta_identifier all = (id, Some l1, TDefining l2 :: ns ++ [TTerminator l3 c]))
    by (eexists; reflexivity).
  destruct E as (id & ->). cbn [skip_cost skip_trivia is_gap_token is_comment orb is_defining_symbol].
  set (rest := ns ++ [TTerminator l3 c]) in *.
  assert (Hlen : length all = 2 * n + 4).
  { unfold all, rest. cbn [length]. rewrite app_length, (nest_length _ _ _ Hn). cbn [length]. lia. }
  assert (Hfuel : exists f, rd_fuel all = S (S (S (S (5 * n + f))))).
  { unfold rd_fuel. rewrite Hlen. exists (7 * n + 26). lia. }
  destruct Hfuel as (f & ->).
  pose proof (nest_descend w Hw n ns Hn f all [TTerminator l3 c]) as Hd. fold rest in Hd.
  assert (Hin : skip_trivia rest = rest).
  { unfold rest. destruct Hn; [destruct w; try destruct Hw; reflexivity|reflexivity]. }
  assert (Hf : primary_cost (5 * n + f) all rest <= factor_cost (S (5 * n + f)) all rest).
  { cbn [factor_cost]. rewrite Hin. unfold rest. destruct Hn; [destruct w; try destruct Hw; cbn [app]; lia|cbn [app]; lia]. }
  cbn [dl_cost sd_cost term_cost]. lia.
Qed.

Theorem brackets_squared : forall name n ss, concat ss = [97%N; c_eq] ++ bracketed n ++ [c_semi] ->
  n * n <= pieces_cost (lx_new name 0%N) ss.
Proof.
  intros name n ss E.
  set (l1 := loc_push_str (loc_new name) [97%N]). set (l2 := loc_push_str l1 [c_eq]).
  destruct (bracketed_lexes n [c_semi] (fun ts => exists l, ts = [TTerminator l c_semi; TEOF (loc_push_str l [c_semi])])) with (l := l2)
    as (w & ns & ts & Hw & Hn & Hlex & (l3 & ->)).
  { intros l. eexists. split; [|exists l; reflexivity].
    apply (lexes_one l (TTerminator l c_semi) []); [left; reflexivity|reflexivity|exact I|constructor]. }
  set (t1 := TMeta (loc_new name) [97%N]). set (t2 := TDefining l1).
  assert (Hall : lexes (loc_new name) (concat ss) ((t1 :: t2 :: ns) ++ TTerminator l3 c_semi :: [TEOF (loc_push_str l3 [c_semi])])).
  { rewrite E. cbn [app]. apply (lexes_one (loc_new name) t1).
    - exists 97%N, []. split; [reflexivity|]. split; [unfold letter; lia|constructor].
    - reflexivity.
    - cbn. unfold letter, digit. lia.
    - apply (lexes_one l1 t2); [exact I|reflexivity|destruct n; exact I|exact Hlex]. }
  assert (Hu : unended (t1 :: t2 :: ns)).
  { constructor; [reflexivity|]. constructor; [reflexivity|]. clear - Hw Hn.
    induction Hn; [constructor; [destruct w; try destruct Hw; reflexivity|constructor]|].
    constructor; [reflexivity|]. apply Forall_app. split; [exact IHHn|constructor; [reflexivity|constructor]]. }
  pose proof (pieces_built name ss _ _ _ Hall Hu eq_refl) as H.
  pose proof (build_nest w n ns (loc_new name) [97%N] l1 l3 c_semi Hw Hn) as H2. fold t1 t2 in H2. cbn [app] in H. lia.
Qed.
