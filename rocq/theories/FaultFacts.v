(** Facts about faults of texts. *)
From Coq Require Import String List NArith Arith Bool Lia.
From Verif Require Import Base Tokenizer Ast Lex SpecText SpecTok SpecLex SpecGram TextFacts TokFacts TokRun LexRun GramFacts SpecFault.
Import ListNotations.
Open Scope nat_scope.

(** ** Cutting a text *)
Lemma cuts_app : forall l s ts l' v, cuts l s ts l' v -> forall ts2 l2 v2, cuts l' v ts2 l2 v2 -> cuts l s (ts ++ ts2) l2 v2.
Proof. intros l s ts l' v H. induction H; intros ts2 l2 v2 K; [exact K|]. cbn [app]. econstructor; eauto. Qed.
Lemma cuts_text : forall l s ts l' v, cuts l s ts l' v -> s = flat_map tok_text ts ++ v /\ reaches l (flat_map tok_text ts) l'.
Proof.
  intros l s ts l' v H. induction H as [l v|l l1 t rest ts l' v Hv Hl Hf Hr H (IH1 & IH2)].
  - split; [reflexivity|]. apply reaches_push. reflexivity.
  - cbn [flat_map]. split; [rewrite IH1, <- app_assoc at 1; reflexivity|]. apply reaches_push. apply reaches_push in Hr, IH2. rewrite push_str_app, <- Hr. exact IH2.
Qed.
Lemma cuts_at : forall l s a t b l' v, cuts l s (a ++ t :: b) l' v -> reaches l (flat_map tok_text a) (tok_loc t) /\ exists r, s = flat_map tok_text a ++ tok_text t ++ r.
Proof.
  intros l s a. revert l s. induction a as [|x a IH]; intros l s t b l' v H; cbn [app flat_map] in *; inversion H as [|l0 l1 t0 rest ts l0' v0 Hv Hl Hf Hr Hc E1 E2 E3 E4]; subst.
  - split; [apply reaches_push; reflexivity|]. exists rest. reflexivity.
  - apply IH in Hc as (K & r & ->). split; [|exists r; rewrite <- app_assoc; reflexivity].
    apply reaches_push in K, Hr. apply reaches_push. rewrite push_str_app, <- Hr. exact K.
Qed.
Lemma steps_cuts : forall l b ts l' b', steps l b ts l' b' -> cuts l b ts l' b'.
Proof.
  intros l b ts l' b' H. induction H as [|l b t n ts l' b' H Hs IH]; [constructor|].
  destruct (read_next_split _ _ _ _ _ H) as (E1 & E2 & _). apply read_next_sound in H as (rest & Eb & En & _ & Hv & Hl & Hf).
  assert (Er : skipn n b = rest). { rewrite Eb, En, skipn_app, skipn_all, Nat.sub_diag. reflexivity. }
  rewrite Eb. rewrite Er in IH. econstructor; eauto. apply reaches_push. rewrite E1. reflexivity.
Qed.
Lemma cuts_steps : forall l s ts l' v, cuts l s ts l' v -> v <> [] -> steps l s ts l' v.
Proof.
  intros l s ts l' v H Hn. induction H as [l v|l l1 t rest ts l' v Hv Hl Hf Hr H IH]; [constructor|]. specialize (IH Hn).
  assert (Hrest : rest <> []). { destruct (cuts_text _ _ _ _ _ H) as (E & _). intros ->. symmetry in E. apply app_eq_nil in E as (_ & E). contradiction. }
  destruct (read_next_complete l t rest Hv Hl Hf) as [E|(E & _)]; [|contradiction].
  econstructor; [exact E|]. rewrite firstn_app, firstn_all, Nat.sub_diag, firstn_O, app_nil_r, skipn_app, skipn_all, Nat.sub_diag. cbn [skipn app].
  apply reaches_push in Hr. rewrite <- Hr. exact IH.
Qed.

(** ** Faults of tokens *)
Lemma scan_bad : forall q al b c, scan_to q al b = SBad c -> exists w r, b = w ++ c :: r /\ Forall (fun x => al x = true) w /\ ~ In q w /\ c <> q /\ al c = false.
Proof.
  induction b as [|x b IH]; intros c H; cbn [scan_to] in H; [discriminate|]. destruct (N.eqb_spec x q) as [E|E]; [discriminate|].
  destruct (al x) eqn:Ea; cbn [negb] in H.
  - destruct (scan_to q al b) as [|c'|s'] eqn:Es; try discriminate. injection H as ->. destruct (IH _ eq_refl) as (w & r & -> & H1 & H2 & H3 & H4).
    exists (x :: w), r. split; [reflexivity|]. split; [constructor; assumption|]. split; [|auto]. intros [K|K]; [congruence|exact (H2 K)].
  - injection H as ->. exists [], b. repeat split; auto.
Qed.
Lemma scan_end : forall q al b, scan_to q al b = SEnd -> Forall (fun x => al x = true) b /\ ~ In q b.
Proof.
  induction b as [|x b IH]; intros H; cbn [scan_to] in H; [split; [constructor|intros []]|]. destruct (N.eqb_spec x q) as [E|E]; [discriminate|].
  destruct (al x) eqn:Ea; cbn [negb] in H; [|discriminate]. destruct (scan_to q al b) as [|c'|s'] eqn:Es; try discriminate. destruct (IH eq_refl) as (H1 & H2).
  split; [constructor; assumption|]. intros [K|K]; [congruence|exact (H2 K)].
Qed.
Lemma scan_bad_is : forall q al w c r, Forall (fun x => al x = true) w -> ~ In q w -> c <> q -> al c = false -> scan_to q al (w ++ c :: r) = SBad c.
Proof.
  induction w as [|x w IH]; intros c r H1 H2 H3 H4; cbn [app scan_to].
  - destruct (N.eqb_spec c q); [contradiction|]. rewrite H4. reflexivity.
  - inversion H1; subst. destruct (N.eqb_spec x q) as [->|]; [exfalso; apply H2; left; reflexivity|]. rewrite H5. cbn [negb]. rewrite IH; auto. intros K. apply H2. right. exact K.
Qed.
Lemma scan_end_is : forall q al w, Forall (fun x => al x = true) w -> ~ In q w -> scan_to q al w = SEnd.
Proof.
  induction w as [|x w IH]; intros H1 H2; cbn [scan_to]; [reflexivity|]. inversion H1; subst.
  destruct (N.eqb_spec x q) as [->|]; [exfalso; apply H2; left; reflexivity|]. rewrite H3. cbn [negb]. rewrite IH; auto. intros K. apply H2. right. exact K.
Qed.

(** [w] after [prev] does not close the comment at depth [d]. *)
Definition staying (prev : char) (d : nat) (w : str) : Prop :=
  Forall (fun c => printable c \/ gap_char c) w /\ forall p q, prev :: w = p ++ q -> closes p <= d + opens p.
Lemma staying_nil : forall prev d, staying prev d [].
Proof. intros prev d. split; [constructor|]. intros [|x [|y p]] q E; cbn in *; try lia. discriminate. Qed.
Lemma staying_step : forall prev d d' c w, closes [prev; c] + d' = d + opens [prev; c] -> closes [prev; c] <= d + opens [prev; c] ->
  printable c \/ gap_char c -> (staying prev d (c :: w) <-> staying c d' w).
Proof.
  intros prev d d' c w E L P.
  assert (D : forall a b p, digrams a b (prev :: c :: p) = digrams a b [prev; c] + digrams a b (c :: p)).
  { intros a b p. rewrite digrams_cons2. rewrite (digrams_cons2 a b prev c []). cbn [digrams]. lia. }
  split; intros (H1 & H2).
  - split; [inversion H1; assumption|]. intros p q Ep. destruct p as [|y p]; [cbn; lia|]. cbn in Ep. injection Ep as <- Ep.
    specialize (H2 (prev :: c :: p) q). cbn [app] in H2. rewrite <- Ep in H2. specialize (H2 eq_refl). rewrite (D c_star c_rpar p), (D c_lpar c_star p) in H2. lia.
  - split; [constructor; assumption|]. intros p q Ep. destruct p as [|y [|z p]]; [cbn; lia|cbn; lia|]. cbn in Ep. injection Ep as <- <- Ep.
    specialize (H2 (c :: p) q). cbn [app] in H2. rewrite <- Ep in H2. specialize (H2 eq_refl). rewrite (D c_star c_rpar p), (D c_lpar c_star p). lia.
Qed.
Lemma pair_counts : forall prev c, 
  closes [prev; c] = (if (prev =? c_star)%N && (c =? c_rpar)%N then 1 else 0) /\
  opens [prev; c] = (if (prev =? c_lpar)%N && (c =? c_star)%N then 1 else 0).
Proof. intros. rewrite !digrams_cons2. cbn [digrams]. split; lia. Qed.
Lemma not_ok_char : forall c, negb (is_gap c) && negb (is_terminal c) = true <-> ~ printable c /\ ~ gap_char c.
Proof.
  intros c. rewrite <- is_terminal_spec, <- is_gap_spec. destruct (is_gap c), (is_terminal c); cbn; intuition congruence.
Qed.
Lemma comment_bad : forall b prev d l l' c, comment_loop prev d l b = CBad l' c ->
  exists w r, b = w ++ c :: r /\ staying prev d w /\ ~ printable c /\ ~ gap_char c /\ l' = loc_push_str l w.
Proof.
  induction b as [|x b IH]; intros prev d l l' c H; cbn [comment_loop] in H; [discriminate|].
  assert (K : forall d', closes [prev; x] + d' = d + opens [prev; x] -> closes [prev; x] <= d + opens [prev; x] -> printable x \/ gap_char x ->
    match comment_loop x d' (loc_push l x) b with CFound n => CFound (S n) | y => y end = CBad l' c ->
    exists w r, x :: b = w ++ c :: r /\ staying prev d w /\ ~ printable c /\ ~ gap_char c /\ l' = loc_push_str l w).
  { intros d' E1 E2 E3 E. destruct (comment_loop x d' (loc_push l x) b) as [|l0 c0|n] eqn:Ec; try discriminate. injection E as -> ->.
    destruct (IH _ _ _ _ _ Ec) as (w & r & -> & Hw & H1 & H2 & ->). exists (x :: w), r. split; [reflexivity|].
    split; [apply (staying_step prev d d'); assumption|]. auto. }
  destruct (pair_counts prev x) as (E1 & E2).
  destruct ((prev =? c_star)%N && (x =? c_rpar)%N) eqn:EA.
  - assert (E3 : (prev =? c_lpar)%N && (x =? c_star)%N = false).
    { apply andb_true_iff in EA as (EA & EB). apply N.eqb_eq in EA, EB. subst. reflexivity. } rewrite E3 in E2.
    destruct d as [|d]; [discriminate|]. apply (K d); [lia|lia| |exact H]. apply andb_true_iff in EA as (_ & EB). apply N.eqb_eq in EB. subst x. left. apply rpar_printable.
  - destruct ((prev =? c_lpar)%N && (x =? c_star)%N) eqn:EB.
    + apply (K (S d)); [lia|lia| |exact H]. apply andb_true_iff in EB as (_ & EB). apply N.eqb_eq in EB. subst x. left. apply star_printable.
    + destruct (negb (is_gap x) && negb (is_terminal x)) eqn:EC.
      * injection H as <- <-. apply not_ok_char in EC as (N1 & N2). exists [], b. split; [reflexivity|]. split; [apply staying_nil|]. auto.
      * apply (K d); [lia|lia| |exact H]. apply ok_comment_char. exact EC.
Qed.
Lemma comment_end : forall b prev d l, comment_loop prev d l b = CEnd -> staying prev d b.
Proof.
  induction b as [|x b IH]; intros prev d l H; cbn [comment_loop] in H; [apply staying_nil|].
  assert (K : forall d', closes [prev; x] + d' = d + opens [prev; x] -> closes [prev; x] <= d + opens [prev; x] -> printable x \/ gap_char x ->
    match comment_loop x d' (loc_push l x) b with CFound n => CFound (S n) | y => y end = CEnd -> staying prev d (x :: b)).
  { intros d' E1 E2 E3 E. destruct (comment_loop x d' (loc_push l x) b) as [|l0 c0|n] eqn:Ec; try discriminate. apply (staying_step prev d d'); eauto. }
  destruct (pair_counts prev x) as (E1 & E2).
  destruct ((prev =? c_star)%N && (x =? c_rpar)%N) eqn:EA.
  - assert (E3 : (prev =? c_lpar)%N && (x =? c_star)%N = false).
    { apply andb_true_iff in EA as (EA & EB). apply N.eqb_eq in EA, EB. subst. reflexivity. } rewrite E3 in E2.
    destruct d as [|d]; [discriminate|]. apply (K d); [lia|lia| |exact H]. apply andb_true_iff in EA as (_ & EB). apply N.eqb_eq in EB. subst x. left. apply rpar_printable.
  - destruct ((prev =? c_lpar)%N && (x =? c_star)%N) eqn:EB.
    + apply (K (S d)); [lia|lia| |exact H]. apply andb_true_iff in EB as (_ & EB). apply N.eqb_eq in EB. subst x. left. apply star_printable.
    + destruct (negb (is_gap x) && negb (is_terminal x)) eqn:EC; [discriminate|]. apply (K d); [lia|lia| |exact H]. apply ok_comment_char. exact EC.
Qed.
Lemma staying_run : forall w prev d l b, staying prev d w ->
  exists prev' d', comment_loop prev d l (w ++ b) = match comment_loop prev' d' (loc_push_str l w) b with CFound n => CFound (length w + n) | y => y end.
Proof.
  induction w as [|x w IH]; intros prev d l b H.
  - exists prev, d. cbn. destruct (comment_loop prev d l b); reflexivity.
  - cbn [app comment_loop]. destruct (pair_counts prev x) as (E1 & E2).
    assert (P : printable x \/ gap_char x) by (destruct H as (H & _); inversion H; assumption).
    assert (L : closes [prev; x] <= d + opens [prev; x]) by (destruct H as (_ & H); apply (H [prev; x] w); reflexivity).
    assert (K : forall d', closes [prev; x] + d' = d + opens [prev; x] -> exists prev' d'',
      match comment_loop x d' (loc_push l x) (w ++ b) with CFound n => CFound (S n) | y => y end =
      match comment_loop prev' d'' (loc_push_str l (x :: w)) b with CFound n => CFound (length (x :: w) + n) | y => y end).
    { intros d' E. apply (staying_step prev d d') in H; [|exact E|exact L|exact P]. destruct (IH x d' (loc_push l x) b H) as (p' & d'' & ->). exists p', d''.
      change (loc_push_str l (x :: w)) with (loc_push_str (loc_push l x) w). destruct (comment_loop p' d'' _ b); reflexivity. }
    destruct ((prev =? c_star)%N && (x =? c_rpar)%N) eqn:EA.
    + assert (E3 : (prev =? c_lpar)%N && (x =? c_star)%N = false).
      { apply andb_true_iff in EA as (EA & EB). apply N.eqb_eq in EA, EB. subst. reflexivity. } rewrite E3 in E2.
      destruct d as [|d]; [lia|]. apply K. lia.
    + destruct ((prev =? c_lpar)%N && (x =? c_star)%N) eqn:EB; [apply K; lia|].
      apply ok_comment_char in P. rewrite P. apply K. lia.
Qed.
Lemma commented_staying : forall w, commented w <-> staying c_star 0 w.
Proof. intros w. reflexivity. Qed.

Definition subset (a b : str) : bool := forallb (fun x => existsb (N.eqb x) b) a.
Lemma subset_in : forall a b x, subset a b = true -> In x a -> In x b.
Proof.
  intros a b x H Hx. unfold subset in H. rewrite forallb_forall in H. apply H in Hx. apply existsb_exists in Hx as (y & Hy & E). apply N.eqb_eq in E. subst y. exact Hy.
Qed.
Lemma foreign_spec : forall c, foreign c <-> first_not c /\ is_letter c = false /\ is_digit c = false /\ is_gap c = false.
Proof.
  intros c. unfold foreign, first_not. rewrite <- is_letter_spec, <- is_digit_spec, <- is_gap_spec, !not_true_iff_false.
  assert (E : (forall x, In x [44;61;124;33;59;46;45;41;91;93;123;125;39;34;40;47;58;42;63]%N -> (c =? x)%N = false) <-> ~ In c (of_string "*-,|=;![](){}/:.'""?")).
  { split.
    - intros H K. assert (K' : In c [44;61;124;33;59;46;45;41;91;93;123;125;39;34;40;47;58;42;63]%N) by (eapply subset_in; [|exact K]; vm_compute; reflexivity).
      specialize (H c K'). rewrite N.eqb_refl in H. discriminate.
    - intros H x Hx. apply N.eqb_neq. intros ->. apply H. eapply subset_in; [|exact Hx]. vm_compute. reflexivity. }
  rewrite E. tauto.
Qed.

Lemma terminal_all : forall w, Forall (fun x => is_terminal x = true) w <-> Forall printable w.
Proof. intros w. rewrite !Forall_forall. split; intros H x Hx; apply is_terminal_spec; auto. Qed.
Lemma special_all : forall w, Forall (fun x => is_special x = true) w <-> Forall (fun x => x <> c_quest /\ (printable x \/ gap_char x)) w.
Proof. intros w. rewrite !Forall_forall. split; intros H x Hx; apply is_special_spec; auto. Qed.

Lemma terminal_fault : forall l q r fl e, quote q -> terminal_string l (q :: r) fl = Err e -> fault l (q :: r) e.
Proof.
  intros l q r fl e Hq H. unfold terminal_string in H. destruct (scan_to q is_terminal r) as [|c|[|x s]] eqn:Es; try discriminate.
  - destruct fl; [|discriminate]. injection H as <-. apply scan_end in Es as (H1 & H2). apply fa_term_open; [exact Hq|apply terminal_all; exact H1|exact H2].
  - injection H as <-. apply scan_bad in Es as (w & r' & -> & H1 & H2 & H3 & H4). apply fa_term_bad; [exact Hq|apply terminal_all; exact H1|exact H2|].
    intros K. apply is_terminal_spec in K. congruence.
  - injection H as <-. apply scan_to_found in Es as (r' & -> & _). apply fa_term_empty. exact Hq.
Qed.
Lemma special_fault : forall l r fl e, special_sequence l (c_quest :: r) fl = Err e -> fault l (c_quest :: r) e.
Proof.
  intros l r fl e H. unfold special_sequence in H. destruct (scan_to c_quest is_special r) as [|c|s] eqn:Es; try discriminate.
  - destruct fl; [|discriminate]. injection H as <-. apply scan_end in Es as (H1 & H2). apply fa_spec_open. apply special_all. exact H1.
  - injection H as <-. apply scan_bad in Es as (w & r' & -> & H1 & H2 & H3 & H4).
    assert (K : ~ printable c /\ ~ gap_char c).
    { split; intros K; assert (K' : is_special c = true) by (apply is_special_spec; auto); congruence. }
    apply fa_spec_bad; [apply special_all; exact H1|apply K|apply K].
Qed.
Lemma comment_fault : forall l r fl e, (forall r', r <> c_rpar :: r') -> comment l (c_lpar :: c_star :: r) fl = Err e -> fault l (c_lpar :: c_star :: r) e.
Proof.
  intros l r fl e Hr H. unfold comment in H. destruct (comment_loop c_star 0 (loc_push_str l [c_lpar; c_star]) r) as [|l' c|[|n]] eqn:Es; try discriminate.
  - destruct fl; [|discriminate]. injection H as <-. apply fa_comment_open. apply comment_end in Es. exact Es.
  - injection H as <-. apply comment_bad in Es as (w & r' & -> & Hw & H1 & H2 & ->). apply fa_comment_bad; [exact Hw|exact H1|exact H2|].
    apply reaches_push. change (c_lpar :: c_star :: w) with ([c_lpar; c_star] ++ w). rewrite push_str_app. reflexivity.
Qed.
Lemma read_next_fault : forall l b fl e, (fl = true -> stuck l b) -> read_next l b fl = Err e -> fault l b e.
Proof.
  intros l b fl e Hfl H. destruct b as [|c r]; [discriminate|].
  assert (Hst : fl = true -> forall x r', r = x :: r' -> c <> c_slash /\ c <> c_colon /\ c <> c_star).
  { intros E x r' ->. specialize (Hfl E). split; [|split]; intros ->; vm_compute in Hfl; destruct x; discriminate || (ifs_in Hfl; discriminate). }
  destruct (in_dec N.eq_dec c [44;61;124;33;59;46;45;41;91;93;123;125;39;34;40;47;58;42;63]%N) as [Hin|Hout].
  - cbn [In] in Hin. repeat (destruct Hin as [<-|Hin]; [try discriminate H|]); [..|destruct Hin].
    all: unfold read_next in H; cbn [N.eqb Pos.eqb orb] in H.
    all: match type of H with (if ?x then _ else _) = _ => destruct x eqn:Ex; [discriminate|] end.
    + apply (terminal_fault l _ r fl); [left; reflexivity|exact H].
    + apply (terminal_fault l _ r fl); [right; reflexivity|exact H].
    + destruct r as [|d r2]; [discriminate|]. destruct (N.eqb_spec d c_star) as [->|Hd]; [|ifs_in H; discriminate].
      destruct r2 as [|x r3]; [apply (comment_fault l [] fl); [discriminate|exact H]|]. destruct (N.eqb_spec x c_rpar) as [->|Hx].
      * injection H as <-. apply fa_ambiguous.
      * apply (comment_fault l (x :: r3) fl); [congruence|exact H].
    + ifs_in H; discriminate.
    + destruct r as [|d r2]; [rewrite andb_false_r in H; injection H as <-; apply fa_colon; discriminate|].
      destruct fl; [destruct (Hst eq_refl d r2 eq_refl) as (_ & K & _); exfalso; apply K; reflexivity|]. cbn [negb andb] in H.
      destruct (N.eqb_spec d c_rpar) as [->|Hd]; [discriminate|]. injection H as <-. apply fa_colon. cbn. congruence.
    + destruct r as [|d r2]; [rewrite andb_false_r in H; discriminate|]. destruct (_ && (d =? c_rpar)%N) eqn:Ea; [|discriminate]. injection H as <-.
      apply andb_true_iff in Ea as (_ & Ea). apply N.eqb_eq in Ea. subst d. apply fa_end_comment.
    + apply (special_fault l r fl). exact H.
  - assert (Hn : first_not c). { intros x Hx. apply N.eqb_neq. intros ->. exact (Hout Hx). }
    rewrite read_next_run in H by exact Hn. destruct (_ && _); [discriminate|].
    destruct (is_letter c) eqn:E1; [discriminate|]. destruct (is_digit c) eqn:E2; [discriminate|]. destruct (is_gap c) eqn:E3; [discriminate|].
    injection H as <-. apply fa_foreign. apply foreign_spec. auto.
Qed.

(** A fault is noticed: at once, or at the end. *)
Lemma quote_not : forall q, quote q -> forall l r fl, read_next l (q :: r) fl = if negb fl && (match r with [] => true | _ => false end) then Ok None else terminal_string l (q :: r) fl.
Proof. intros q [-> | ->] l r fl; reflexivity. Qed.
Lemma fault_read : forall l v e, fault l v e ->
  (~ unfinished v e /\ read_next l v false = Err e) \/ (unfinished v e /\ stuck l v /\ read_next l v true = Err e).
Proof.
  intros l v e H. destruct H as [c r H|r H|r|r|q r H|q w c r Hq H1 H2 H3|q w Hq H1 H2|w c r H1 H2 H3|w H1|w c r l' Hw H1 H2 Hl|w Hw]; unfold unfinished; cbn [e_msg length].
  - apply foreign_spec in H as (Hn & H1 & H2 & H3). destruct r as [|d r].
    + right. split; [reflexivity|]. unfold stuck. rewrite !read_next_run by exact Hn. rewrite H1, H2, H3. split; reflexivity.
    + left. split; [discriminate|]. rewrite read_next_run by exact Hn. rewrite H1, H2, H3. reflexivity.
  - destruct r as [|d r].
    + right. repeat split; reflexivity.
    + left. split; [discriminate|]. unfold read_next. cbn [N.eqb Pos.eqb orb negb andb]. destruct (N.eqb_spec d c_rpar) as [->|Hd]; [exfalso; apply H; reflexivity|reflexivity].
  - left. split; [tauto|reflexivity].
  - left. split; [tauto|reflexivity].
  - left. split; [tauto|]. rewrite quote_not by exact H. cbn [negb andb]. unfold terminal_string. cbn [scan_to]. rewrite N.eqb_refl. reflexivity.
  - left. split; [tauto|]. rewrite quote_not by exact Hq. assert (Hne : c <> q). { intros ->. apply H3. destruct Hq as [-> | ->]; unfold printable; lia. }
    destruct (w ++ c :: r) as [|x y] eqn:E; [destruct w; discriminate|]. rewrite <- E. cbn [negb andb]. unfold terminal_string.
    rewrite scan_bad_is; auto; [apply terminal_all; exact H1|]. apply not_true_iff_false. intros K. apply is_terminal_spec in K. contradiction.
  - right. split; [exact I|]. apply terminal_all in H1. unfold stuck. rewrite !quote_not by exact Hq. cbn [negb andb]. unfold terminal_string. rewrite (scan_end_is q is_terminal w) by assumption.
    split; [destruct w; reflexivity|reflexivity].
  - left. split; [tauto|]. assert (Hne : c <> c_quest). { intros ->. apply H2. unfold printable. lia. }
    unfold read_next. cbn [N.eqb Pos.eqb orb negb andb]. destruct (w ++ c :: r) as [|x y] eqn:E; [destruct w; discriminate|]. rewrite <- E. unfold special_sequence.
    rewrite scan_bad_is; auto; [apply special_all; exact H1| |].
    + intros K. rewrite Forall_forall in H1. apply H1 in K. destruct K as (K & _). congruence.
    + apply not_true_iff_false. intros K. apply is_special_spec in K. tauto.
  - right. split; [exact I|]. assert (Hq : ~ In c_quest w). { intros K. rewrite Forall_forall in H1. apply H1 in K. destruct K as (K & _). congruence. }
    apply special_all in H1. unfold stuck, read_next. cbn [N.eqb Pos.eqb orb negb andb]. unfold special_sequence. rewrite (scan_end_is c_quest is_special w) by assumption.
    split; [destruct w; reflexivity|reflexivity].
  - left. split; [tauto|]. apply reaches_push in Hl.
    assert (E : comment l (c_lpar :: c_star :: w ++ c :: r) false = Err (Error_ l' (MCommentBadChar c))).
    { unfold comment. destruct (staying_run w c_star 0 (loc_push_str l [c_lpar; c_star]) (c :: r) Hw) as (p' & d' & ->).
      assert (E : comment_loop p' d' (loc_push_str (loc_push_str l [c_lpar; c_star]) w) (c :: r) = CBad l' c).
      { cbn [comment_loop]. destruct ((p' =? c_star)%N && (c =? c_rpar)%N) eqn:EA.
        { apply andb_true_iff in EA as (_ & EA). apply N.eqb_eq in EA. subst c. exfalso. apply H1. apply rpar_printable. }
        destruct ((p' =? c_lpar)%N && (c =? c_star)%N) eqn:EB.
        { apply andb_true_iff in EB as (_ & EB). apply N.eqb_eq in EB. subst c. exfalso. apply H1. apply star_printable. }
        assert (EC : negb (is_gap c) && negb (is_terminal c) = true) by (apply not_ok_char; auto). rewrite EC. f_equal.
        rewrite Hl. change (c_lpar :: c_star :: w) with ([c_lpar; c_star] ++ w). rewrite push_str_app. reflexivity. }
      rewrite E. reflexivity. }
    unfold read_next. cbn [N.eqb Pos.eqb orb negb andb]. destruct w as [|x w]; cbn [app] in *.
    + destruct (N.eqb_spec c c_rpar) as [->|]; [exfalso; apply H1; apply rpar_printable|exact E].
    + destruct (N.eqb_spec x c_rpar) as [->|]; [|exact E]. exfalso. destruct Hw as (_ & Hw). specialize (Hw [c_star; c_rpar] w eq_refl). vm_compute in Hw. lia.
  - right. split; [exact I|].
    assert (E : forall fl, comment l (c_lpar :: c_star :: w) fl = if fl then Err (Error_ l MCommentNotClosed) else Ok None).
    { intros fl. unfold comment. destruct (staying_run w c_star 0 (loc_push_str l [c_lpar; c_star]) [] Hw) as (p' & d' & K). rewrite app_nil_r in K. rewrite K. reflexivity. }
    unfold stuck, read_next. cbn [N.eqb Pos.eqb orb negb andb]. destruct w as [|x w]; [split; apply E|].
    destruct (N.eqb_spec x c_rpar) as [->|]; [|split; apply E]. exfalso. destruct Hw as (_ & Hw). specialize (Hw [c_star; c_rpar] w eq_refl). vm_compute in Hw. lia.
Qed.
Lemma fault_nonempty : forall l v e, fault l v e -> v <> [].
Proof. intros l v e H. destruct H; discriminate. Qed.
(** A text has one fault at most. *)
Lemma lexical_unique : forall name s e e', lexical name s e -> lexical name s e' -> e = e'.
Proof.
  intros name s e e' (ts & l & v & Hc & Hf) (ts' & l' & v' & Hc' & Hf').
  apply cuts_steps in Hc; [|eapply fault_nonempty; exact Hf]. apply cuts_steps in Hc'; [|eapply fault_nonempty; exact Hf'].
  assert (K : forall l v e, fault l v e -> forall t n, read_next l v false <> Ok (Some (t, n))).
  { clear. intros l v e H t n E. apply fault_read in H as [(_ & H)|(_ & H & _)]; [congruence|]. unfold stuck in H. congruence. }
  destruct (steps_det _ _ _ _ _ Hc (K _ _ _ Hf) _ _ _ Hc' (K _ _ _ Hf')) as (_ & <- & <-).
  apply fault_read in Hf as [(_ & Hf)|(_ & Hs & Hf)]; apply fault_read in Hf' as [(_ & Hf')|(_ & Hs' & Hf')]; unfold stuck in *; congruence.
Qed.
