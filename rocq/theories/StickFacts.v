(** When lexical errors are noticed, and that they stay. *)
From Coq Require Import String List NArith Arith Bool Lia.
From Verif Require Import Base Ident Tokenizer Ast Lex SpecText TextFacts SpecTok TokFacts TokRun
  SpecLex LexRun GramText SpecStick.
Import ListNotations.
Open Scope nat_scope.

(** ** An unfinished token can be finished *)
Lemma scan_to_end : forall q al b, scan_to q al b = SEnd -> Forall (fun c => al c = true) b /\ ~ In q b.
Proof.
  induction b as [|c b IH]; intros H; [split; [constructor|intros []]|]. cbn [scan_to] in H.
  destruct (N.eqb_spec c q) as [->|Hne]; [discriminate|]. destruct (al c) eqn:Ha; [|discriminate]. cbn [negb] in H.
  destruct (scan_to q al b) eqn:E; try discriminate. destruct (IH eq_refl) as (HF & Hn).
  split; [constructor; assumption|]. intros [Hc|Hc]; auto.
Qed.
Lemma closing_some : forall d prev, exists v, closing prev d (c_space :: v).
Proof.
  assert (S1 : forall (prev : char) (d : nat), closes [prev; c_space] = 0 /\ opens [prev; c_space] = 0).
  { intros prev d. cbn. rewrite !andb_false_r. auto. }
  assert (Hsp : printable c_space \/ gap_char c_space) by (left; unfold printable; lia).
  assert (K : forall d u, closing c_space d u -> forall prev, closing prev d (c_space :: u)).
  { intros d u H prev. destruct (S1 prev d) as (E1 & E2). eapply closing_step; [| |exact Hsp|exact H]; rewrite E1, E2; lia. }
  assert (Z : exists v, closing c_space 0 v).
  { exists [c_star]. eapply closing_step; [| |left; exact star_printable|apply closing_nil; auto]; cbn; lia. }
  assert (A : forall d, exists v, closing c_space d v).
  { induction d as [|d (v & IH)]; [exact Z|]. exists (c_star :: c_rpar :: c_space :: v).
    eapply closing_step with (d' := S d); [| |left; exact star_printable|]; [cbn; lia|cbn; lia|].
    eapply closing_step with (d' := d); [| |left; exact rpar_printable|]; [cbn; lia|cbn; lia|].
    apply K. exact IH. }
  intros d prev. destruct (A d) as (v & H). exists v. apply K. exact H.
Qed.
Lemma comment_end : forall b prev d l, comment_loop prev d l b = CEnd -> exists v, closing prev d (b ++ c_space :: v).
Proof.
  induction b as [|c b IH]; intros prev d l H.
  - cbn [app]. apply closing_some.
  - cbn [comment_loop] in H. cbn [app].
    destruct ((prev =? c_star)%N && (c =? c_rpar)%N) eqn:E1.
    + apply andb_true_iff in E1 as (Ep & Ec). apply N.eqb_eq in Ep, Ec. subst prev c.
      destruct d as [|d]; [discriminate|].
      destruct (comment_loop c_rpar d (loc_push l c_rpar) b) eqn:E; try discriminate.
      destruct (IH _ _ _ E) as (v & Hv). exists v.
      eapply closing_step; [| |left; exact rpar_printable|exact Hv]; cbn; lia.
    + destruct ((prev =? c_lpar)%N && (c =? c_star)%N) eqn:E2.
      * apply andb_true_iff in E2 as (Ep & Ec). apply N.eqb_eq in Ep, Ec. subst prev c.
        destruct (comment_loop c_star (S d) (loc_push l c_star) b) eqn:E; try discriminate.
        destruct (IH _ _ _ E) as (v & Hv). exists v.
        eapply closing_step; [| |left; exact star_printable|exact Hv]; cbn; lia.
      * destruct (negb (is_gap c) && negb (is_terminal c)) eqn:E3; [discriminate|].
        destruct (comment_loop c d (loc_push l c) b) eqn:E; try discriminate.
        destruct (IH _ _ _ E) as (v & Hv). exists v.
        eapply closing_step; [| |apply ok_comment_char; exact E3|exact Hv]; cbn [digrams]; rewrite E1, E2; lia.
Qed.
Lemma one_token : forall t, valid_tok t ->
  lexes (tok_loc t) (tok_text t) [t; TEOF (loc_push_str (tok_loc t) (tok_text t))].
Proof.
  intros t Hv. rewrite <- (app_nil_r (tok_text t)) at 1.
  econstructor; [exact Hv|reflexivity|exact I|apply push_str_reaches|constructor].
Qed.
Lemma span_all : forall p b, span_len p b = length b -> Forall (fun c => p c = true) b.
Proof.
  induction b as [|c b IH]; intros H; [constructor|]. cbn [span_len] in H. destruct (p c) eqn:E; [|discriminate].
  constructor; [exact E|]. apply IH. cbn in H. lia.
Qed.
Lemma read_while_none : forall b p, read_while b p false = None -> Forall (fun c => p c = true) b.
Proof.
  intros b p H. unfold read_while in H. cbn [negb andb] in H.
  destruct (Nat.eqb_spec (span_len p b) (length b)); [|discriminate]. apply span_all. assumption.
Qed.
Lemma stuck_completes : forall l b, stuck l b -> length b <> 1 -> exists v ts, lexes l (b ++ v) ts.
Proof.
  intros l b H Hlen. unfold stuck in H. destruct b as [|c [|d r]]; [|cbn in Hlen; lia|].
  { exists [], [TEOF l]. constructor. }
  assert (K : forall t v, valid_tok t -> tok_loc t = l -> tok_text t = (c :: d :: r) ++ v ->
    exists v ts, lexes l ((c :: d :: r) ++ v) ts).
  { intros t v Hv <- E. exists v, [t; TEOF (loc_push_str (tok_loc t) (tok_text t))]. rewrite <- E. apply one_token. exact Hv. }
  clear Hlen. revert H. unfold read_next, tok_ok. cbn [negb andb]. ifs; try discriminate; intros H.
  - (* quoted *)
    unfold terminal_string in H. destruct (scan_to c is_terminal (d :: r)) as [|x|s] eqn:E.
    + apply scan_to_end in E as (HF & Hn). apply (K (TTerminal l (d :: r) c) [c]); [|reflexivity|reflexivity].
      cbn [valid_tok]. split; [|split; [discriminate|split; [|exact Hn]]].
      * apply orb_true_iff in Heqb9 as [E|E]; apply N.eqb_eq in E; auto.
      * eapply Forall_impl; [|exact HF]. intros x. apply is_terminal_spec.
    + discriminate.
    + destruct s; discriminate.
  - (* comment *)
    eqbs. clear - H K. destruct r as [|e r].
    + destruct (closing_some 0 c_star) as (v & Hv). destruct (closing_last_star _ _ _ Hv) as [(F & _)|(s & Es)]; [discriminate|].
      apply (K (TComment l s) (c_space :: v ++ [c_rpar])); [|reflexivity|].
      * cbn [valid_tok]. apply comment_text_closing. rewrite <- Es. exact Hv.
      * cbn [tok_text app]. f_equal. f_equal. change (c_space :: v ++ [c_rpar]) with ((c_space :: v) ++ [c_rpar]).
        rewrite Es, <- app_assoc. reflexivity.
    + destruct (e =? c_rpar)%N eqn:Ee; [discriminate|]. unfold comment in H.
      destruct (comment_loop c_star 0 (loc_push_str l [c_lpar; c_star]) (e :: r)) as [| |n] eqn:E.
      * destruct (comment_end _ _ _ _ E) as (v & Hv).
        destruct (closing_last_star _ _ _ Hv) as [(F & _)|(s & Es)]; [discriminate|].
        apply (K (TComment l s) (c_space :: v ++ [c_rpar])); [|reflexivity|].
        -- cbn [valid_tok]. apply comment_text_closing. rewrite <- Es. exact Hv.
        -- cbn [tok_text app]. f_equal. f_equal.
           transitivity (((e :: r) ++ c_space :: v) ++ [c_rpar]); [rewrite Es, <- app_assoc; reflexivity|].
           rewrite <- app_assoc. reflexivity.
      * discriminate.
      * destruct n; discriminate.
  - (* special *)
    eqbs. unfold special_sequence in H. destruct (scan_to c_quest is_special (d :: r)) as [|x|s] eqn:E; try discriminate.
    apply scan_to_end in E as (HF & Hn). apply (K (TSpecial l (d :: r)) [c_quest]); [|reflexivity|reflexivity].
    cbn [valid_tok]. eapply Forall_impl; [|exact HF]. intros x Hx. apply is_special_spec in Hx. tauto.
  - (* word *)
    destruct (read_while (d :: r) is_meta_char false) eqn:E; [discriminate|]. apply read_while_none in E.
    apply (K (TMeta l (c :: d :: r)) []); [|reflexivity|symmetry; apply app_nil_r].
    exists c, (d :: r). split; [reflexivity|]. split; [apply is_letter_spec; assumption|].
    eapply Forall_impl; [|exact E]. intros x. apply meta_char_spec.
  - destruct (read_while (d :: r) is_digit false) eqn:E; [discriminate|]. apply read_while_none in E.
    apply (K (TInteger l (c :: d :: r)) []); [|reflexivity|symmetry; apply app_nil_r].
    split; [discriminate|]. constructor; [apply is_digit_spec; assumption|].
    eapply Forall_impl; [|exact E]. intros x. apply is_digit_spec.
  - destruct (read_while (d :: r) is_gap false) eqn:E; [discriminate|]. apply read_while_none in E.
    apply (K (TGap l (c :: d :: r)) []); [|reflexivity|symmetry; apply app_nil_r].
    split; [discriminate|]. constructor; [apply is_gap_spec; assumption|].
    eapply Forall_impl; [|exact E]. intros x. apply is_gap_spec.
Qed.
Lemma steps_then : forall l b ts l' b', steps l b ts l' b' -> forall v ts2, lexes l' (b' ++ v) ts2 ->
  lexes l (b ++ v) (ts ++ ts2).
Proof.
  intros l b ts l' b' H. induction H as [l b|l b t n ts l' b' Hrn Hs IH]; intros v ts2 H2; [exact H2|].
  destruct (read_next_split _ _ _ _ _ Hrn) as (Hf & Hb & Hn).
  pose proof (read_next_stable l b v ltac:(congruence)) as Hst. rewrite Hrn in Hst.
  apply read_next_sound in Hst as (rest & Hb2 & _ & _ & Hv & Hl & Hfo).
  cbn [app]. rewrite Hb2. rewrite Hb, <- app_assoc in Hb2. apply app_inv_head in Hb2. subst rest.
  econstructor; [exact Hv|exact Hl|apply Hfo|apply push_str_reaches|]; auto.
  rewrite <- Hf. apply IH. exact H2.
Qed.
(** At most one character late. *)
Lemma tl_viable : forall l s c l' ts b', tl l (s ++ [c]) = (l', Ok (ts, b')) -> exists v ts, lexes l (s ++ v) ts.
Proof.
  intros l s c l' ts b' H. apply tl_ok in H as (Hs & Hst).
  destruct (Nat.eq_dec (length b') 1) as [E|E].
  - destruct (steps_lexes _ _ _ _ _ Hs) as (u & Eu & Hl). destruct b' as [|x [|? ?]]; try discriminate.
    apply app_inj_tail in Eu as (-> & _). exists [], (ts ++ [TEOF l']). rewrite app_nil_r. exact Hl.
  - destruct (stuck_completes _ _ Hst E) as (v & ts2 & H2). exists (c :: v), (ts ++ ts2).
    change (c :: v) with ([c] ++ v). rewrite app_assoc. eapply steps_then; eassumption.
Qed.

(** ** Decisions do not depend on the location *)
Definition kind (r : res (option (token * nat))) : option (option nat) :=
  match r with Ok o => Some (option_map snd o) | _ => None end.
Lemma comment_kind : forall b prev d l l',
  match comment_loop prev d l b, comment_loop prev d l' b with
  | CEnd, CEnd => True | CBad _ _, CBad _ _ => True | CFound n, CFound m => n = m | _, _ => False end.
Proof.
  induction b as [|c b IH]; intros prev d l l'; [exact I|]. cbn [comment_loop].
  destruct (_ && _); [destruct d as [|d]; [reflexivity|]|destruct (_ && _); [|destruct (_ && _); [exact I|]]];
    match goal with |- context [comment_loop c ?d (loc_push l c) b] =>
      specialize (IH c d (loc_push l c) (loc_push l' c)); destruct (comment_loop c d (loc_push l c) b), (comment_loop c d (loc_push l' c) b)
    end; try contradiction; auto.
Qed.
Lemma read_next_kind : forall l l' b fl, kind (read_next l b fl) = kind (read_next l' b fl).
Proof.
  intros l l' [|c r] fl; [reflexivity|]. unfold read_next, tok_ok.
  ifs; try reflexivity.
  - unfold terminal_string. destruct (scan_to c is_terminal r) as [| |[|]]; try reflexivity. destruct fl; reflexivity.
  - destruct r as [|d r]; [reflexivity|].
    assert (C : forall r, kind (comment l (c :: d :: r) fl) = kind (comment l' (c :: d :: r) fl)).
    { intros r'. unfold comment. pose proof (comment_kind r' d 0 (loc_push_str l [c_lpar; c_star]) (loc_push_str l' [c_lpar; c_star])) as H.
      destruct (comment_loop d 0 (loc_push_str l [c_lpar; c_star]) r') as [| |[|n]],
        (comment_loop d 0 (loc_push_str l' [c_lpar; c_star]) r') as [| |[|m]]; try contradiction; try discriminate H; try reflexivity.
      - destruct fl; reflexivity.
      - injection H as <-. reflexivity. }
    ifs; try reflexivity. destruct r as [|e r]; [apply C|]. destruct (e =? c_rpar)%N; [reflexivity|apply C].
  - unfold special_sequence. destruct (scan_to c_quest is_special r); try reflexivity. destruct fl; reflexivity.
  - destruct (read_while r is_meta_char fl); reflexivity.
  - destruct (read_while r is_digit fl); reflexivity.
  - destruct (read_while r is_gap fl); reflexivity.
Qed.
Definition broken (b : str) : Prop := forall l, exists l' e, tl l b = (l', Err e).
Lemma steps_anywhere : forall l b ts l' b', steps l b ts l' b' -> forall m, exists ts' m', steps m b ts' m' b'.
Proof.
  intros l b ts l' b' H. induction H as [l b|l b t n ts l' b' Hrn Hs IH]; intros m; [exists [], m; constructor|].
  pose proof (read_next_kind l m b false) as K. rewrite Hrn in K. cbn in K.
  destruct (read_next m b false) as [[[t' n']|]| | |] eqn:E; try discriminate. cbn in K. injection K as <-.
  destruct (IH (loc_push_str m (firstn n b))) as (ts' & m' & H'). exists (t' :: ts'), m'. econstructor; eassumption.
Qed.
Lemma tl_broken : forall l b l' e, tl l b = (l', Err e) -> broken b.
Proof.
  intros l b l' e H m. apply tl_err in H as (ts & b' & Hs & He).
  destruct (steps_anywhere _ _ _ _ _ Hs m) as (ts' & m' & Hs').
  pose proof (read_next_kind l' m' b' false) as K. rewrite He in K. cbn in K.
  pose proof (read_next_no_panic m' b' false) as Hp.
  destruct (read_next m' b' false) as [| e'| |] eqn:E; try discriminate; try (destruct Hp; fail).
  exists m', e'. apply tl_err. eauto.
Qed.
Lemma broken_more : forall b x, broken b -> broken (b ++ x).
Proof.
  intros b x H l. destruct (H l) as (l' & e & E). apply tl_err in E as (ts & b' & Hs & He).
  exists l', e. apply tl_err. exists ts, (b' ++ x). split; [apply steps_app; exact Hs|].
  rewrite read_next_stable by congruence. exact He.
Qed.

(** ** States *)
Definition tk_state (l0 : location) (u : str) (tk : tokenizer) : Prop :=
  tk_max tk = 0%N /\ exists ts l, steps l0 u ts l (tk_buf tk) /\
    ((tk_loc tk = l /\ stuck l (tk_buf tk)) \/ broken (tk_buf tk)).
Lemma call_tk : forall lx f, lx_tk (fst (call lx f)) = fst (tk_push_str (lx_tk lx) (frag_text f)).
Proof.
  intros lx [c|s]; cbn [call frag_text].
  - unfold lx_push, tk_push. destruct (tk_push_str (lx_tk lx) [c]) as [tk r].
    pose proof (append_tk lx tk r) as H. destruct (lx_append lx tk r) as [lx' rs]. exact H.
  - unfold lx_push_str. destruct (tk_push_str (lx_tk lx) s) as [tk r]. apply append_tk.
Qed.
Lemma push_state : forall l0 u tk s, tk_state l0 u tk -> tk_state l0 (u ++ s) (fst (tk_push_str tk s)).
Proof.
  intros l0 u tk s (Hm & ts & l & Hs & Hc). unfold tk_push_str. rewrite unlimited_capacity by exact Hm.
  unfold tokenize. cbn [tk_buf tk_loc tk_max]. change (tokenize_loop _ ?a ?b) with (tl a b).
  pose proof (steps_app _ _ _ _ _ Hs s) as Hs'. destruct Hc as [(El & Hst)|Hb].
  - rewrite El. destruct (tl_cases l (tk_buf tk ++ s)) as [(l' & ts' & b' & E)|(l' & e & E)]; rewrite E.
    + apply tl_ok in E as (H1 & H2). split; [exact Hm|]. exists (ts ++ ts'), l'.
      split; [eapply steps_trans; eassumption|]. left. auto.
    + split; [exact Hm|]. exists ts, l. split; [exact Hs'|]. right. eapply tl_broken. exact E.
  - destruct (broken_more _ s Hb (tk_loc tk)) as (l' & e & E). rewrite E.
    split; [exact Hm|]. exists ts, l. split; [exact Hs'|]. right. apply broken_more. exact Hb.
Qed.
Lemma calls_state : forall fs lx l0 u, tk_state l0 u (lx_tk lx) -> tk_state l0 (u ++ frags_text fs) (lx_tk (calls lx fs)).
Proof.
  induction fs as [|f fs IH]; intros lx l0 u H; [cbn; rewrite app_nil_r; exact H|].
  cbn [calls fold_left]. unfold frags_text. cbn [flat_map]. rewrite app_assoc. apply IH. rewrite call_tk. apply push_state. exact H.
Qed.
Lemma call_err : forall lx f tk e, tk_push_str (lx_tk lx) (frag_text f) = (tk, Err e) -> snd (call lx f) = Err e.
Proof.
  intros lx [c|s] tk e H; cbn [call frag_text] in *.
  - unfold lx_push, tk_push. rewrite H. reflexivity.
  - unfold lx_push_str. rewrite H. reflexivity.
Qed.
Lemma hopeless_more : forall name u x, hopeless name u -> hopeless name (u ++ x).
Proof. intros name u x H v ts. rewrite <- app_assoc. apply H. Qed.

(** What [flush] sees instead of what [push] saw. *)
Lemma flush_same : forall l b, read_next l b false <> Ok None -> b <> [] ->
  read_next l b true = read_next l b false \/
  match read_next l b true with Ok (Some (_, n)) => n = 1 /\ 1 < length b | _ => True end.
Proof.
  intros l [|c [|d r]] H Hb; [congruence| |].
  { revert H. unfold read_next, tok_ok. cbn [negb andb]. ifs; try (left; reflexivity); intros H; exfalso; apply H; reflexivity. }
  revert H. unfold read_next, tok_ok. cbn [negb andb]. ifs; intros H; try (left; reflexivity);
    try (right; cbn; lia); try (right; exact I).
  - unfold terminal_string in *. destruct (scan_to c is_terminal (d :: r)) as [| |[|]]; try (left; reflexivity). exfalso. apply H. reflexivity.
  - destruct r as [|e r]; [exfalso; apply H; unfold comment; reflexivity|]. destruct (e =? c_rpar)%N; [left; reflexivity|].
    unfold comment in *. destruct (comment_loop d 0 _ (e :: r)) as [| |[|]]; try (left; reflexivity). exfalso. apply H. reflexivity.
  - unfold special_sequence in *. destruct (scan_to c_quest is_special (d :: r)) as [| |]; try (left; reflexivity). exfalso. apply H. reflexivity.
  - unfold read_while in *. cbn [negb andb] in *. destruct (Nat.eqb _ _); [exfalso; apply H; reflexivity|left; reflexivity].
  - unfold read_while in *. cbn [negb andb] in *. destruct (Nat.eqb _ _); [exfalso; apply H; reflexivity|left; reflexivity].
  - unfold read_while in *. cbn [negb andb] in *. destruct (Nat.eqb _ _); [exfalso; apply H; reflexivity|left; reflexivity].
Qed.
Lemma flush_broken : forall tk ts, broken (tk_buf tk) -> snd (tk_flush tk) <> Ok ts.
Proof.
  intros tk ts H. destruct (H (tk_loc tk)) as (l' & e & E). apply tl_err in E as (ts0 & b' & Hs & He).
  assert (Hb : tk_buf tk <> []).
  { intros E. rewrite E in Hs. inversion Hs; subst; [discriminate|]. discriminate. }
  assert (Hn : read_next (tk_loc tk) (tk_buf tk) false <> Ok None).
  { inversion Hs; subst; congruence. }
  unfold tk_flush. destruct (flush_same _ _ Hn Hb) as [E|E].
  - rewrite E. inversion Hs as [l0 b0|l0 b0 t n ts1 l1 b1 Hrn Hs' E1 E2]; subst.
    + rewrite He. discriminate.
    + rewrite Hrn. cbn [tk_buf]. destruct (skipn n (tk_buf tk)) eqn:Ek; [|discriminate].
      inversion Hs'; subst; discriminate.
  - pose proof (read_next_no_panic (tk_loc tk) (tk_buf tk) true) as Hp.
    destruct (read_next (tk_loc tk) (tk_buf tk) true) as [[[t n]|]| | |]; try discriminate; try (destruct Hp; fail).
    + destruct E as (-> & Hl). cbn [tk_buf]. destruct (skipn 1 (tk_buf tk)) eqn:Ek; [|discriminate].
      apply (f_equal (@length _)) in Ek. rewrite skipn_length in Ek. cbn in Ek. lia.
    + cbn [skipn tk_buf]. destruct (tk_buf tk); [congruence|discriminate].
Qed.

Lemma new_state : forall name, tk_state (loc_new name) [] (lx_tk (lx_new name 0)).
Proof. intros name. split; [reflexivity|]. exists [], (loc_new name). split; [constructor|]. left. split; reflexivity. Qed.
Lemma stick_calls : forall name fs f, hopeless name (frags_text fs) -> frag_text f <> [] ->
  exists e, snd (call (calls (lx_new name 0) fs) f) = Err e.
Proof.
  intros name fs f Hh Hf. pose proof (calls_state fs _ _ _ (new_state name)) as (Hm & ts & l & Hs & Hc). cbn [app] in Hs.
  set (lx := calls (lx_new name 0) fs) in *.
  enough (exists l' e, tl (tk_loc (lx_tk lx)) (tk_buf (lx_tk lx) ++ frag_text f) = (l', Err e)) as (l' & e & E).
  { exists e. eapply call_err. unfold tk_push_str. rewrite unlimited_capacity by exact Hm.
    unfold tokenize. cbn [tk_buf tk_loc tk_max]. change (tokenize_loop _ ?a ?b) with (tl a b). rewrite E. reflexivity. }
  destruct Hc as [(El & Hst)|Hb]; [|apply broken_more; exact Hb].
  destruct (tl_cases (tk_loc (lx_tk lx)) (tk_buf (lx_tk lx) ++ frag_text f)) as [(l' & ts' & b' & E)|H]; [|exact H].
  exfalso. apply tl_ok in E as (H1 & H2). rewrite El in H1.
  pose proof (steps_trans _ _ _ _ _ (steps_app _ _ _ _ _ Hs (frag_text f)) _ _ _ H1) as H3.
  destruct (rev (frag_text f)) as [|c r] eqn:Er.
  { apply Hf. rewrite <- (rev_involutive (frag_text f)), Er. reflexivity. }
  assert (Ef : frag_text f = rev r ++ [c]) by (rewrite <- (rev_involutive (frag_text f)), Er; reflexivity).
  rewrite Ef, app_assoc in H3.
  assert (Ht : tl (loc_new name) ((frags_text fs ++ rev r) ++ [c]) = (l', Ok (ts ++ ts', b'))) by (apply tl_ok; auto).
  apply tl_viable in Ht as (v & ts2 & Hl). rewrite <- app_assoc in Hl. exact (Hh _ _ Hl).
Qed.
Lemma stick_flush : forall name fs o, hopeless name (frags_text fs) -> snd (lx_flush (calls (lx_new name 0) fs)) <> Ok o.
Proof.
  intros name fs o Hh. pose proof (calls_state fs _ _ _ (new_state name)) as (Hm & ts & l & Hs & Hc). cbn [app] in Hs.
  set (lx := calls (lx_new name 0) fs) in *. unfold lx_flush.
  assert (K : forall ts', snd (tk_flush (lx_tk lx)) <> Ok ts').
  { intros ts'. destruct Hc as [(El & Hst)|Hb]; [|apply flush_broken; exact Hb].
    destruct (lx_tk lx) as [m b l1] eqn:Etk. cbn [tk_max tk_buf tk_loc] in *. subst m l1.
    rewrite flushed_tail by exact Hst. destruct (flushed l b) as [ts2|] eqn:Efl.
    - exfalso. apply (Hh [] (ts ++ ts2)). rewrite app_nil_r. apply lexes_steps. exists ts, l, b, ts2. auto.
    - cbn [snd]. destruct (read_next l b true); discriminate. }
  destruct (tk_flush (lx_tk lx)) as [tk r]. cbn [snd] in K. destruct r as [new| | |]; try discriminate.
  exfalso. exact (K new eq_refl).
Qed.

(** ** Failures are not premature *)
Lemma feed_app : forall a b lx, feed lx (a ++ b) =
  match feed lx a with
  | (lx1, Ok rs1) => match feed lx1 b with (lx2, Ok rs2) => (lx2, Ok (rs1 ++ rs2)) | x => x end
  | x => x
  end.
Proof.
  induction a as [|f a IH]; intros b lx; cbn [app feed].
  - destruct (feed lx b) as [lx2 [rs2| | |]]; reflexivity.
  - destruct (call lx f) as [lx1 [rs1| | |]]; try reflexivity. rewrite IH.
    destruct (feed lx1 a) as [lx2 [rs2| | |]]; try reflexivity.
    destruct (feed lx2 b) as [lx3 [rs3| | |]]; try reflexivity. rewrite app_assoc. reflexivity.
Qed.
Lemma not_premature : forall name fs lx e, feed (lx_new name 0) fs = (lx, Err e) ->
  forall v rs, parse_str name (frags_text fs ++ v) <> Ok rs.
Proof.
  intros name fs lx e H v rs E.
  replace (frags_text fs ++ v) with (frags_text (fs ++ [FStr v])) in E.
  - apply frags_ok_iff in E. unfold lex_fragments in E. rewrite feed_app, H in E. discriminate.
  - unfold frags_text. rewrite flat_map_app. cbn. rewrite app_nil_r. reflexivity.
Qed.
Lemma feed_calls : forall fs lx lx' rs, feed lx fs = (lx', Ok rs) -> calls lx fs = lx'.
Proof.
  induction fs as [|f fs IH]; intros lx lx' rs H; cbn [feed] in H; [injection H as <- _; reflexivity|].
  cbn [calls fold_left]. destruct (call lx f) as [lx1 [rs1| | |]]; try discriminate. cbn [fst].
  destruct (feed lx1 fs) as [lx2 [rs2| | |]] eqn:E; try discriminate. injection H as <- _. eapply IH. exact E.
Qed.
Lemma viable : forall name fs lx rs s c, feed (lx_new name 0) fs = (lx, Ok rs) -> frags_text fs = s ++ [c] ->
  ~ hopeless name s.
Proof.
  intros name fs lx rs s c H E Hh.
  (* split the fragments at the last character *)
  assert (Hc : forall fs lx0 u lx' rs', tk_state (loc_new name) u (lx_tk lx0) ->
    (exists ts l, steps (loc_new name) u ts l (tk_buf (lx_tk lx0)) /\ tk_loc (lx_tk lx0) = l /\ stuck l (tk_buf (lx_tk lx0))) ->
    feed lx0 fs = (lx', Ok rs') ->
    exists ts l, steps (loc_new name) (u ++ frags_text fs) ts l (tk_buf (lx_tk lx')) /\ tk_loc (lx_tk lx') = l /\ stuck l (tk_buf (lx_tk lx'))).
  { clear. induction fs as [|f fs IH]; intros lx0 u lx' rs' Hst Hg H; cbn [feed] in H.
    - injection H as <- _. cbn. rewrite app_nil_r. exact Hg.
    - destruct (call lx0 f) as [lx1 [rs1| | |]] eqn:Ec; try discriminate.
      destruct (feed lx1 fs) as [lx2 [rs2| | |]] eqn:Ef; try discriminate. injection H as <- _.
      unfold frags_text. cbn [flat_map]. rewrite app_assoc. eapply IH; [| |exact Ef].
      + pose proof (call_tk lx0 f) as K. rewrite Ec in K. cbn [fst] in K. rewrite K. apply push_state. exact Hst.
      + destruct Hg as (ts & l & Hs & El & Hk).
        pose proof (call_tk lx0 f) as K. rewrite Ec in K. cbn [fst] in K.
        destruct (tk_push_str (lx_tk lx0) (frag_text f)) as [tk [new|e| |]] eqn:Et.
        * cbn [fst] in K. rewrite K. unfold tk_push_str in Et. rewrite unlimited_capacity in Et by apply Hst.
          unfold tokenize in Et. cbn [tk_buf tk_loc tk_max] in Et. change (tokenize_loop _ ?a ?b) with (tl a b) in Et.
          destruct (tl (tk_loc (lx_tk lx0)) (tk_buf (lx_tk lx0) ++ frag_text f)) as [l' [[ts' b']| | |]] eqn:Etl; try discriminate.
          injection Et as <- _. apply tl_ok in Etl as (H1 & H2). rewrite El in H1. exists (ts ++ ts'), l'. cbn.
          split; [eapply steps_trans; [apply steps_app; exact Hs|exact H1]|auto].
        * apply call_err in Et. rewrite Ec in Et. discriminate.
        * exfalso. destruct f as [x|x]; cbn [call frag_text] in *; unfold lx_push, lx_push_str, tk_push in Ec; rewrite Et in Ec; discriminate.
        * exfalso. destruct f as [x|x]; cbn [call frag_text] in *; unfold lx_push, lx_push_str, tk_push in Ec; rewrite Et in Ec; discriminate. }
  destruct (Hc fs (lx_new name 0) [] lx rs (new_state name)) as (ts & l & Hs & El & Hk).
  - exists [], (loc_new name). split; [constructor|]. split; reflexivity.
  - exact H.
  - cbn [app] in Hs. rewrite E in Hs.
    assert (Ht : tl (loc_new name) (s ++ [c]) = (l, Ok (ts, tk_buf (lx_tk lx)))) by (apply tl_ok; auto).
    apply tl_viable in Ht as (v & ts2 & Hl). exact (Hh _ _ Hl).
Qed.
Lemma failed_hopeless : forall name s l e, tl (loc_new name) s = (l, Err e) -> hopeless name s.
Proof.
  intros name s l e H v ts Hl. apply tl_broken in H. apply (broken_more _ v) in H.
  destruct (H (loc_new name)) as (l' & e' & E). apply tl_err in E as (ts' & b' & Hs & He).
  apply lexes_steps in Hl as (ts1 & l1 & b1 & ts2 & Hs1 & Hst & _).
  destruct (steps_det _ _ _ _ _ Hs ltac:(congruence) _ _ _ Hs1 ltac:(congruence)) as (_ & -> & ->). congruence.
Qed.
