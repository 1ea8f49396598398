(** Facts about [read_next] and [tokenize_loop]. *)
From Coq Require Import String List NArith Arith Bool Lia.
From Verif Require Import Base Tokenizer Lex SpecText TextFacts SpecTok.
Import ListNotations.
Open Scope nat_scope.

(** ** Character classes *)
Lemma is_letter_spec : forall c, is_letter c = true <-> letter c.
Proof.
  intros c. unfold is_letter, letter.
  rewrite orb_true_iff, !andb_true_iff, !N.leb_le. tauto.
Qed.
Lemma is_digit_spec : forall c, is_digit c = true <-> digit c.
Proof. intros c. unfold is_digit, digit. rewrite andb_true_iff, !N.leb_le. tauto. Qed.
Lemma is_terminal_spec : forall c, is_terminal c = true <-> printable c.
Proof.
  intros c. unfold is_terminal, printable.
  rewrite andb_true_iff, N.leb_le, N.ltb_lt. lia.
Qed.
Lemma is_other_printable : forall c, is_other c = true -> printable c /\ c <> 63%N.
Proof.
  intros c. unfold is_other. rewrite existsb_exists. intros (x & Hin & Hx).
  apply N.eqb_eq in Hx. subst x. unfold printable.
  cbn [In] in Hin. repeat (destruct Hin as [<-|Hin]; [lia|]). destruct Hin.
Qed.
Lemma gap_not_quest : forall c, gap_char c -> c <> 63%N.
Proof. unfold gap_char. lia. Qed.
Lemma is_special_spec : forall c, is_special c = true <->
  c <> c_quest /\ (printable c \/ gap_char c).
Proof.
  intros c. unfold is_special.
  rewrite !orb_true_iff, andb_true_iff, negb_true_iff, N.eqb_neq,
    is_terminal_spec, is_gap_spec.
  split.
  - intros [[[H1 H2]|H]|H]; [tauto| |].
    + apply is_other_printable in H. tauto.
    + pose proof (gap_not_quest _ H). tauto.
  - tauto.
Qed.
Lemma meta_char_spec : forall c, is_meta_char c = true <-> letter c \/ digit c.
Proof.
  intros c. unfold is_meta_char, is_meta_first.
  rewrite orb_true_iff, is_letter_spec, is_digit_spec. tauto.
Qed.
Lemma not_true_false : forall b, b = false <-> ~ b = true.
Proof. intros []; split; congruence. Qed.

(** ** Scanning to a closing quote *)
Lemma scan_to_app : forall q al b x,
  scan_to q al b <> SEnd -> scan_to q al (b ++ x) = scan_to q al b.
Proof.
  induction b as [|c b IH]; intros x H; cbn [scan_to app] in *; [congruence|].
  destruct (c =? q)%N; [reflexivity|].
  destruct (negb (al c)); [reflexivity|].
  rewrite IH; [reflexivity|]. intros E. rewrite E in H. congruence.
Qed.

Lemma scan_to_found : forall q al b s, scan_to q al b = SFound s ->
  exists r, b = s ++ q :: r /\ Forall (fun c => al c = true) s /\ ~ In q s.
Proof.
  induction b as [|c b IH]; intros s H; cbn [scan_to] in H; [congruence|].
  destruct (N.eqb_spec c q) as [->|Hne].
  - injection H as <-. exists b. repeat split; auto.
  - destruct (al c) eqn:Ha; cbn [negb] in H; [|congruence].
    destruct (scan_to q al b) as [| |s'] eqn:E; try congruence.
    injection H as <-. destruct (IH s' eq_refl) as (r & -> & HF & Hn).
    exists r. repeat split; auto. intros [Hc|Hc]; congruence.
Qed.

Lemma scan_to_complete : forall q al s r,
  Forall (fun c => al c = true) s -> ~ In q s ->
  scan_to q al (s ++ q :: r) = SFound s.
Proof.
  induction s as [|c s IH]; intros r HF Hn; cbn [scan_to app].
  - rewrite N.eqb_refl. reflexivity.
  - destruct (N.eqb_spec c q) as [->|Hne]; [exfalso; apply Hn; left; reflexivity|].
    inversion HF; subst. rewrite H1. cbn [negb].
    rewrite IH; auto. intros Hin. apply Hn. right. exact Hin.
Qed.

(** ** Comments *)
Lemma comment_loop_app : forall b prev d l x,
  comment_loop prev d l b <> CEnd ->
  comment_loop prev d l (b ++ x) = comment_loop prev d l b.
Proof.
  induction b as [|c b IH]; intros prev d l x H; cbn [comment_loop app] in *; [congruence|].
  destruct ((prev =? c_star)%N && (c =? c_rpar)%N).
  - destruct d; [reflexivity|]. rewrite IH; [reflexivity|]. intros E. rewrite E in H. congruence.
  - destruct ((prev =? c_lpar)%N && (c =? c_star)%N).
    + rewrite IH; [reflexivity|]. intros E. rewrite E in H. congruence.
    + destruct (negb (is_gap c) && negb (is_terminal c)); [reflexivity|].
      rewrite IH; [reflexivity|]. intros E. rewrite E in H. congruence.
Qed.

Lemma digrams_cons2 : forall a b x y r,
  digrams a b (x :: y :: r) = ((if N.eqb x a && N.eqb y b then 1 else 0) + digrams a b (y :: r))%nat.
Proof. reflexivity. Qed.

(** [closing prev d u]: reading [u] then a ")" after [prev] at depth [d] closes exactly
    at that ")". *)
Definition closing (prev : char) (d : nat) (u : str) : Prop :=
  Forall (fun c => printable c \/ gap_char c) u /\
  (forall p q, prev :: u ++ [c_rpar] = p ++ q -> q <> [] -> closes p <= d + opens p) /\
  closes (prev :: u ++ [c_rpar]) = S (d + opens (prev :: u ++ [c_rpar])).

Lemma ok_comment_char : forall c,
  negb (is_gap c) && negb (is_terminal c) = false <-> printable c \/ gap_char c.
Proof.
  intros c. rewrite <- is_terminal_spec, <- is_gap_spec.
  destruct (is_gap c), (is_terminal c); cbn; split; intuition congruence.
Qed.

Lemma prefix_singleton : forall (x : char) p q, [x] = p ++ q -> q <> [] -> p = [].
Proof.
  intros x [|y p] q H Hq; [reflexivity|]. cbn in H. injection H as -> H.
  symmetry in H. apply app_eq_nil in H as [_ H]. congruence.
Qed.

Lemma closing_step : forall prev d d' c u,
  (closes [prev; c] + d' = d + opens [prev; c]) ->
  closes [prev; c] <= d + opens [prev; c] ->
  printable c \/ gap_char c ->
  (closing prev d (c :: u) <-> closing c d' u).
Proof.
  intros prev d d' c u Hd Hle Hc. unfold closing.
  cbn [app]. rewrite !(digrams_cons2 _ _ prev c).
  change (closes [prev; c]) with ((if ((prev =? c_star)%N && (c =? c_rpar)%N) then 1 else 0) + 0) in *.
  change (opens [prev; c]) with ((if ((prev =? c_lpar)%N && (c =? c_star)%N) then 1 else 0) + 0) in *.
  set (k1 := if ((prev =? c_star)%N && (c =? c_rpar)%N) then 1 else 0) in *.
  set (k2 := if ((prev =? c_lpar)%N && (c =? c_star)%N) then 1 else 0) in *.
  split; intros (HF & Hp & He); (split; [|split]).
  - inversion HF; assumption.
  - intros p q E Hq.
    destruct p as [|p0 p]; [cbn; lia|].
    cbn [app] in E. injection E as <- E.
    specialize (Hp (prev :: c :: p) q).
    cbn [app] in Hp. rewrite E in Hp. specialize (Hp eq_refl Hq).
    rewrite !(digrams_cons2 _ _ prev c) in Hp. fold k1 k2 in Hp. lia.
  - lia.
  - constructor; assumption.
  - intros p q E Hq.
    destruct p as [|p0 p]; [cbn; lia|].
    cbn [app] in E. injection E as <- E.
    destruct p as [|p1 p]; [cbn; lia|].
    cbn [app] in E. injection E as <- E.
    specialize (Hp (c :: p) q). cbn [app] in Hp. rewrite E in Hp. specialize (Hp eq_refl Hq).
    rewrite !(digrams_cons2 _ _ prev c). fold k1 k2. lia.
  - lia.
Qed.

Lemma lpar_printable : printable c_lpar. Proof. unfold printable. lia. Qed.
Lemma rpar_printable : printable c_rpar. Proof. unfold printable. lia. Qed.
Lemma star_printable : printable c_star. Proof. unfold printable. lia. Qed.

Lemma closing_nil : forall prev d, closing prev d [] <-> prev = c_star /\ d = 0.
Proof.
  intros prev d. unfold closing. cbn [app].
  change (closes [prev; c_rpar]) with ((if ((prev =? c_star)%N && (c_rpar =? c_rpar)%N) then 1 else 0) + 0).
  change (opens [prev; c_rpar]) with ((if ((prev =? c_lpar)%N && (c_rpar =? c_star)%N) then 1 else 0) + 0).
  rewrite N.eqb_refl, andb_true_r. change (c_rpar =? c_star)%N with false. rewrite andb_false_r.
  split.
  - intros (_ & _ & H). destruct (N.eqb_spec prev c_star); [split; [assumption|lia]|lia].
  - intros (-> & ->). split; [constructor|]. split; [|reflexivity].
    intros p q E Hq. destruct p as [|p0 p]; [cbn; lia|].
    cbn [app] in E. injection E as <- E. apply prefix_singleton in E; [|exact Hq]. subst p. cbn. lia.
Qed.

(** The first step of a text that does not close at once. *)
Lemma closing_cons_ok : forall prev d c u,
  closing prev d (c :: u) -> closes [prev; c] <= d + opens [prev; c].
Proof.
  intros prev d c u (_ & Hp & _).
  specialize (Hp [prev; c] (u ++ [c_rpar])).
  apply Hp; [reflexivity|]. destruct u; discriminate.
Qed.

Lemma comment_loop_found : forall b prev d l n,
  comment_loop prev d l b = CFound n ->
  exists u r, b = u ++ c_rpar :: r /\ length u = n /\ closing prev d u.
Proof.
  induction b as [|c b IH]; intros prev d l n H; cbn [comment_loop] in H; [congruence|].
  destruct ((prev =? c_star)%N && (c =? c_rpar)%N) eqn:E1.
  - apply andb_true_iff in E1 as (Ep & Ec). apply N.eqb_eq in Ep, Ec. subst prev c.
    destruct d as [|d].
    + injection H as <-. exists [], b. split; [reflexivity|]. split; [reflexivity|].
      apply closing_nil. auto.
    + destruct (comment_loop c_rpar d (loc_push l c_rpar) b) eqn:E; try congruence.
      injection H as <-. apply IH in E as (u & r & -> & <- & Hc).
      exists (c_rpar :: u), r. split; [reflexivity|]. split; [reflexivity|].
      eapply closing_step; [| |left; exact rpar_printable|exact Hc]; cbn; lia.
  - destruct ((prev =? c_lpar)%N && (c =? c_star)%N) eqn:E2.
    + apply andb_true_iff in E2 as (Ep & Ec). apply N.eqb_eq in Ep, Ec. subst prev c.
      destruct (comment_loop c_star (S d) (loc_push l c_star) b) eqn:E; try congruence.
      injection H as <-. apply IH in E as (u & r & -> & <- & Hc).
      exists (c_star :: u), r. split; [reflexivity|]. split; [reflexivity|].
      eapply closing_step; [| |left; exact star_printable|exact Hc]; cbn; lia.
    + destruct (negb (is_gap c) && negb (is_terminal c)) eqn:E3; [congruence|].
      destruct (comment_loop c d (loc_push l c) b) eqn:E; try congruence.
      injection H as <-. apply IH in E as (u & r & -> & <- & Hc).
      exists (c :: u), r. split; [reflexivity|]. split; [reflexivity|].
      eapply closing_step; [| |apply ok_comment_char; exact E3|exact Hc];
        cbn [digrams]; rewrite E1, E2; lia.
Qed.

Lemma comment_loop_complete : forall u prev d l r,
  closing prev d u -> comment_loop prev d l (u ++ c_rpar :: r) = CFound (length u).
Proof.
  induction u as [|c u IH]; intros prev d l r H.
  - apply closing_nil in H as (-> & ->). reflexivity.
  - pose proof (closing_cons_ok _ _ _ _ H) as Hle.
    assert (Hc : printable c \/ gap_char c) by (destruct H as (HF & _); inversion HF; assumption).
    cbn [comment_loop app].
    destruct ((prev =? c_star)%N && (c =? c_rpar)%N) eqn:E1.
    + assert (E2 : (prev =? c_lpar)%N && (c =? c_star)%N = false).
      { apply andb_true_iff in E1 as (Ep & Ec). apply N.eqb_eq in Ep, Ec. subst. reflexivity. }
      cbn [digrams] in Hle. rewrite E1, E2 in Hle.
      destruct d as [|d]; [lia|].
      rewrite (IH c d); [reflexivity|].
      eapply (closing_step prev (S d)); [| |exact Hc|exact H]; cbn [digrams]; rewrite E1, E2; lia.
    + destruct ((prev =? c_lpar)%N && (c =? c_star)%N) eqn:E2.
      * rewrite (IH c (S d)); [reflexivity|].
        eapply (closing_step prev d); [| |exact Hc|exact H]; cbn [digrams]; rewrite E1, E2; lia.
      * apply ok_comment_char in Hc as Hc'. rewrite Hc'.
        rewrite (IH c d); [reflexivity|].
        eapply (closing_step prev d); [| |exact Hc|exact H]; cbn [digrams]; rewrite E1, E2; lia.
Qed.

(** What stands before the closing ")" ends with a star. *)
Lemma closing_last_star : forall u prev d, closing prev d u ->
  (u = [] /\ prev = c_star) \/ exists s, u = s ++ [c_star].
Proof.
  induction u as [|c u IH]; intros prev d H.
  - apply closing_nil in H. left. tauto.
  - right.
    pose proof (closing_cons_ok _ _ _ _ H) as Hle.
    assert (Hc : printable c \/ gap_char c) by (destruct H as (HF & _); inversion HF; assumption).
    assert (H' : closing c (d + opens [prev; c] - closes [prev; c]) u).
    { eapply closing_step; [| |exact Hc|exact H]; lia. }
    apply IH in H' as [(-> & ->)|(s & ->)].
    + exists []. reflexivity.
    + exists (c :: s). reflexivity.
Qed.

Lemma comment_text_closing : forall s, comment_text s <-> closing c_star 0 (s ++ [c_star]).
Proof.
  intros s. unfold comment_text, closing. rewrite <- app_assoc. cbn [app Nat.add].
  split; intros (HF & HR); (split; [|exact HR]).
  - apply Forall_app. split; [exact HF|]. constructor; [left; exact star_printable|constructor].
  - apply Forall_app in HF. tauto.
Qed.

(** ** Runs *)
Lemma span_len_le : forall p b, span_len p b <= length b.
Proof. induction b as [|c b IH]; cbn; [lia|]. destruct (p c); lia. Qed.

Lemma span_len_split : forall p b, exists u r,
  b = u ++ r /\ length u = span_len p b /\ Forall (fun c => p c = true) u /\
  (forall c r', r = c :: r' -> p c = false).
Proof.
  induction b as [|c b IH]; cbn.
  - exists [], []. repeat split; auto. discriminate.
  - destruct (p c) eqn:E.
    + destruct IH as (u & r & -> & Hl & HF & Hr).
      exists (c :: u), r. repeat split; cbn; auto.
    + exists [], (c :: b). repeat split; auto. intros c0 r' H. injection H as <- <-. exact E.
Qed.

Lemma span_len_app : forall p u r, Forall (fun c => p c = true) u ->
  (forall c r', r = c :: r' -> p c = false) -> span_len p (u ++ r) = length u.
Proof.
  induction u as [|c u IH]; intros r HF Hr; cbn.
  - destruct r as [|c r]; [reflexivity|]. cbn. rewrite (Hr c r eq_refl). reflexivity.
  - inversion HF; subst. rewrite H1. f_equal. apply IH; auto.
Qed.

Lemma span_len_stable : forall p b x, span_len p b <> length b ->
  span_len p (b ++ x) = span_len p b.
Proof.
  induction b as [|c b IH]; intros x H; cbn in *; [congruence|].
  destruct (p c); [|reflexivity]. f_equal. apply IH. lia.
Qed.

Lemma read_while_stable : forall b p n x,
  read_while b p false = Some n -> read_while (b ++ x) p false = Some n.
Proof.
  unfold read_while. intros b p n x. cbn [negb andb].
  destruct (Nat.eqb_spec (span_len p b) (length b)) as [E|E]; [discriminate|].
  rewrite span_len_stable by exact E.
  pose proof (span_len_le p b).
  destruct (Nat.eqb_spec (span_len p b) (length (b ++ x))) as [E2|E2]; [|auto].
  rewrite app_length in E2. lia.
Qed.

(** ** [read_next] *)
Ltac ifs :=
  repeat match goal with
         | |- context [if ?b then _ else _] => destruct b eqn:?
         end.
Ltac ifs_in H :=
  repeat match type of H with
         | context [if ?b then _ else _] => destruct b eqn:?
         end.
Ltac eqbs :=
  repeat match goal with
         | H : (_ =? _)%N = true |- _ => apply N.eqb_eq in H; subst
         | H : (_ || _)%bool = true |- _ => apply orb_true_iff in H; destruct H
         end.

Lemma comment_no_panic : forall l c p r fl,
  (forall r', r <> c_rpar :: r') ->
  match comment l (c :: p :: r) fl with Panic _ | OutOfFuel => False | _ => True end.
Proof.
  intros l c p r fl Hr. unfold comment.
  destruct (comment_loop p 0 (loc_push_str l [c_lpar; c_star]) r) eqn:E.
  - destruct fl; exact I.
  - exact I.
  - destruct n as [|n]; [|exact I].
    apply comment_loop_found in E as (u & r' & -> & Hl & _).
    destruct u; [|discriminate]. exfalso. apply (Hr r'). reflexivity.
Qed.

Lemma terminal_no_panic : forall l c r fl,
  match terminal_string l (c :: r) fl with Panic _ | OutOfFuel => False | _ => True end.
Proof.
  intros. unfold terminal_string. destruct (scan_to c is_terminal r) as [| |[|]]; try exact I.
  destruct fl; exact I.
Qed.
Lemma special_no_panic : forall l c r fl,
  match special_sequence l (c :: r) fl with Panic _ | OutOfFuel => False | _ => True end.
Proof.
  intros. unfold special_sequence. destruct (scan_to c_quest is_special r) as [| |]; try exact I.
  destruct fl; exact I.
Qed.

(** [read_next] never panics. *)
Lemma read_next_no_panic : forall l b fl,
  match read_next l b fl with Panic _ | OutOfFuel => False | _ => True end.
Proof.
  intros l [|c r] fl; [exact I|]. unfold read_next, tok_ok.
  destruct r as [|d r2].
  - ifs; try exact I; try apply terminal_no_panic; try apply special_no_panic.
  - destruct ((c =? c_lpar)%N) eqn:Ec.
    + apply N.eqb_eq in Ec. subst c. cbn [N.eqb Pos.eqb orb].
      ifs; try exact I.
      destruct r2 as [|e r3].
      * apply comment_no_panic. intros; discriminate.
      * destruct (N.eqb_spec e c_rpar) as [->|Hne]; [exact I|].
        apply comment_no_panic. intros; congruence.
    + ifs; try exact I; try apply terminal_no_panic; try apply special_no_panic.
Qed.

(** Once [read_next] has decided, more text does not change the decision. *)
Lemma terminal_stable : forall l b x,
  terminal_string l b false <> Ok None ->
  terminal_string l b false <> Panic PIndex ->
  terminal_string l (b ++ x) false = terminal_string l b false.
Proof.
  intros l [|c r] x H H2; [exfalso; apply H2; reflexivity|]. cbn [app]. unfold terminal_string in *.
  rewrite scan_to_app; [reflexivity|]. intros E. rewrite E in H. congruence.
Qed.
Lemma special_stable : forall l b x,
  special_sequence l b false <> Ok None ->
  special_sequence l b false <> Panic PIndex ->
  special_sequence l (b ++ x) false = special_sequence l b false.
Proof.
  intros l [|c r] x H H2; [exfalso; apply H2; reflexivity|]. cbn [app]. unfold special_sequence in *.
  rewrite scan_to_app; [reflexivity|]. intros E. rewrite E in H. congruence.
Qed.
Lemma comment_stable : forall l c p r x,
  comment l (c :: p :: r) false <> Ok None ->
  comment l (c :: p :: r ++ x) false = comment l (c :: p :: r) false.
Proof.
  intros l c p r x H. unfold comment in *.
  rewrite comment_loop_app by (intros E; rewrite E in H; congruence).
  destruct (comment_loop p 0 (loc_push_str l [c_lpar; c_star]) r) as [| |[|n]] eqn:E; try reflexivity.
  apply comment_loop_found in E as (u & r' & -> & Hl & _).
  enough (E : firstn n ((u ++ c_rpar :: r') ++ x) = firstn n (u ++ c_rpar :: r')) by (rewrite E; reflexivity).
  rewrite <- app_assoc, !firstn_app.
  replace (n - length u) with 0 by lia. reflexivity.
Qed.

Lemma read_while_firstn : forall c r p n, read_while r p false = Some n ->
  forall x, firstn n (c :: r ++ x) = firstn n (c :: r).
Proof.
  unfold read_while. intros c r p n. cbn [negb andb].
  destruct (Nat.eqb_spec (span_len p r) (length r)); [discriminate|].
  intros H x. injection H as <-. cbn [firstn]. f_equal.
  rewrite firstn_app. pose proof (span_len_le p r).
  replace (span_len p r - length r) with 0 by lia. rewrite firstn_O, app_nil_r. reflexivity.
Qed.

Lemma read_next_stable : forall l b x,
  read_next l b false <> Ok None ->
  read_next l (b ++ x) false = read_next l b false.
Proof.
  intros l [|c r] x H; [cbn in H; congruence|].
  destruct r as [|d r2].
  - revert H. unfold read_next. cbn [app negb andb].
    ifs; try reflexivity; try congruence.
  - revert H. unfold read_next. cbn [app negb andb].
    ifs; try reflexivity; try congruence; intros H.
    + apply (terminal_stable l (c :: d :: r2) x H).
      pose proof (terminal_no_panic l c (d :: r2) false) as Hp. intros E. rewrite E in Hp. exact Hp.
    + destruct r2 as [|e r3]; cbn [app].
      * exfalso. apply H. eqbs. reflexivity.
      * destruct (e =? c_rpar)%N; [reflexivity|].
        apply (comment_stable l c d (e :: r3) x H).
    + apply (special_stable l (c :: d :: r2) x H).
      pose proof (special_no_panic l c (d :: r2) false) as Hp. intros E. rewrite E in Hp. exact Hp.
    + destruct (read_while (d :: r2) is_meta_char false) as [n|] eqn:E; [|cbn in H; congruence].
      change (d :: r2 ++ x) with ((d :: r2) ++ x).
      rewrite (read_while_stable _ _ _ x E). cbn [option_map].
      pose proof (read_while_firstn c (d :: r2) _ _ E x) as Hf. cbn [app] in Hf. cbn [app]. rewrite Hf. reflexivity.
    + destruct (read_while (d :: r2) is_digit false) as [n|] eqn:E; [|cbn in H; congruence].
      change (d :: r2 ++ x) with ((d :: r2) ++ x).
      rewrite (read_while_stable _ _ _ x E). cbn [option_map].
      pose proof (read_while_firstn c (d :: r2) _ _ E x) as Hf. cbn [app] in Hf. cbn [app]. rewrite Hf. reflexivity.
    + destruct (read_while (d :: r2) is_gap false) as [n|] eqn:E; [|cbn in H; congruence].
      change (d :: r2 ++ x) with ((d :: r2) ++ x).
      rewrite (read_while_stable _ _ _ x E). cbn [option_map].
      pose proof (read_while_firstn c (d :: r2) _ _ E x) as Hf. cbn [app] in Hf. cbn [app]. rewrite Hf. reflexivity.
Qed.

(** What a decision says. *)
Definition decided (l : location) (b : str) (fl : bool) (t : token) (n : nat) : Prop :=
  exists rest, b = tok_text t ++ rest /\ n = length (tok_text t) /\ 0 < n /\
    valid_tok t /\ tok_loc t = l /\ (fl = false -> follows t (hd_error rest)).

Lemma terminal_sound : forall l c r fl t n,
  c = c_squote \/ c = c_dquote ->
  terminal_string l (c :: r) fl = Ok (Some (t, n)) -> decided l (c :: r) fl t n.
Proof.
  intros l c r fl t n Hc H. unfold terminal_string in H.
  destruct (scan_to c is_terminal r) as [| |s] eqn:E; [destruct fl; discriminate|discriminate|].
  apply scan_to_found in E as (r' & -> & HF & Hn).
  destruct s as [|c0 s]; [discriminate|]. injection H as <- <-.
  exists r'. split; [cbn; rewrite <- app_assoc; reflexivity|].
  split; [cbn; rewrite app_length; cbn; lia|]. split; [lia|].
  split; [|split; [reflexivity|intros _; cbn; destruct r'; exact I]].
  cbn [valid_tok]. split; [exact Hc|]. split; [discriminate|]. split; [|exact Hn].
  eapply Forall_impl; [|exact HF]. intros a. apply is_terminal_spec.
Qed.

Lemma special_sound : forall l r fl t n,
  special_sequence l (c_quest :: r) fl = Ok (Some (t, n)) -> decided l (c_quest :: r) fl t n.
Proof.
  intros l r fl t n H. unfold special_sequence in H.
  destruct (scan_to c_quest is_special r) as [| |s] eqn:E; [destruct fl; discriminate|discriminate|].
  apply scan_to_found in E as (r' & -> & HF & Hn).
  injection H as <- <-.
  exists r'. split; [cbn; rewrite <- app_assoc; reflexivity|].
  split; [cbn; rewrite app_length; cbn; lia|]. split; [lia|].
  split; [|split; [reflexivity|intros _; cbn; destruct r'; exact I]].
  cbn [valid_tok]. eapply Forall_impl; [|exact HF]. intros a. apply is_special_spec.
Qed.

Lemma comment_sound : forall l r fl t n,
  comment l (c_lpar :: c_star :: r) fl = Ok (Some (t, n)) ->
  decided l (c_lpar :: c_star :: r) fl t n.
Proof.
  intros l r fl t n H. unfold comment in H.
  destruct (comment_loop c_star 0 (loc_push_str l [c_lpar; c_star]) r) as [| |[|k]] eqn:E;
    [destruct fl; discriminate|discriminate|discriminate|].
  injection H as <- <-.
  apply comment_loop_found in E as (u & r' & -> & Hl & Hc).
  destruct (closing_last_star _ _ _ Hc) as [(-> & _)|(s & ->)]; [discriminate|].
  rewrite app_length in Hl. cbn in Hl. assert (k = length s) by lia. subst k.
  assert (Ef : firstn (length s) ((s ++ [c_star]) ++ c_rpar :: r') = s).
  { rewrite <- app_assoc, firstn_app, Nat.sub_diag, firstn_O, app_nil_r. apply firstn_all. }
  rewrite Ef.
  exists r'. split; [cbn; rewrite <- !app_assoc; reflexivity|].
  split; [cbn; rewrite app_length; cbn; lia|]. split; [lia|].
  split; [|split; [reflexivity|intros _; destruct r'; exact I]].
  apply comment_text_closing. exact Hc.
Qed.

Lemma run_sound : forall (mk : str -> token) c r p fl t n,
  option_map (fun n => (mk (firstn n (c :: r)), n)) (read_while r p fl) = Some (t, n) ->
  exists u rest, r = u ++ rest /\ n = S (length u) /\ t = mk (c :: u) /\
    Forall (fun c => p c = true) u /\ (forall d r', rest = d :: r' -> p d = false).
Proof.
  intros mk c r p fl t n H. unfold read_while in H.
  destruct (negb fl && (span_len p r =? length r)); [discriminate|].
  cbn [option_map] in H. injection H as <- <-.
  destruct (span_len_split p r) as (u & rest & -> & Hl & HF & Hr).
  exists u, rest. rewrite <- Hl. repeat split; auto.
  cbn [firstn]. rewrite firstn_app, Nat.sub_diag, firstn_O, app_nil_r, firstn_all. reflexivity.
Qed.

Lemma read_next_sound : forall l b fl t n,
  read_next l b fl = Ok (Some (t, n)) -> decided l b fl t n.
Proof.
  intros l b fl t n H. destruct b as [|c r]; [discriminate|].
  unfold read_next, tok_ok in H.
  ifs_in H; eqbs; try discriminate;
    try (injection H as <- <-; exists r; cbn; repeat split; auto; try lia;
         intros _; destruct r; cbn; auto; intros; discriminate).
  - apply terminal_sound in H; auto.
  - apply terminal_sound in H; auto.
  - destruct r as [|d r2].
    + injection H as <- <-. exists []. cbn. repeat split; auto.
    + destruct (N.eqb_spec d c_star) as [->|H1].
      * destruct r2 as [|e r3]; [apply comment_sound; exact H|].
        destruct (e =? c_rpar)%N; [discriminate|]. apply comment_sound; exact H.
      * destruct (N.eqb_spec d c_slash) as [->|H2].
        { injection H as <- <-. exists r2. cbn. repeat split; auto; try lia.
          intros _; destruct r2; exact I. }
        destruct (N.eqb_spec d c_colon) as [->|H3].
        { injection H as <- <-. exists r2. cbn. repeat split; auto; try lia.
          intros _; destruct r2; exact I. }
        injection H as <- <-. exists (d :: r2). cbn. repeat split; auto; try lia.
  - destruct fl; [discriminate|]. cbn [negb andb] in *. destruct r as [|d r2]; [discriminate|].
    eqbs. injection H as <- <-. exists r2. cbn. repeat split; auto; try lia.
    intros _; destruct r2; exact I.
  - injection H as <- <-. exists r. cbn. repeat split; auto; try lia.
    intros ->. destruct r as [|d r2]; [exact I|]. cbn in *. intros _ ->. discriminate.
  - destruct fl; [discriminate|]. cbn [negb andb] in *. destruct r as [|d r2]; [discriminate|].
    eqbs. injection H as <- <-. exists r2. cbn. repeat split; auto; try lia.
    intros _; destruct r2; exact I.
  - injection H as <- <-. exists r. cbn. repeat split; auto; try lia.
    intros ->. destruct r as [|d r2]; [exact I|]. cbn in *. intros ->. discriminate.
  - apply special_sound; exact H.
  - injection H as H. apply run_sound in H as (u & rest & -> & -> & -> & HF & Hr).
    exists rest. cbn. repeat split; auto; try lia.
    + exists c, u. repeat split; auto; [apply is_letter_spec; assumption|].
      eapply Forall_impl; [|exact HF]. intros a. apply meta_char_spec.
    + intros _. destruct rest as [|d r2]; [exact I|]. cbn. specialize (Hr d r2 eq_refl).
      apply not_true_false in Hr. rewrite meta_char_spec in Hr. tauto.
  - injection H as H. apply run_sound in H as (u & rest & -> & -> & -> & HF & Hr).
    exists rest. cbn. repeat split; auto; try lia; try discriminate.
    + constructor; [apply is_digit_spec; assumption|].
      eapply Forall_impl; [|exact HF]. intros a. apply is_digit_spec.
    + intros _. destruct rest as [|d r2]; [exact I|]. cbn. specialize (Hr d r2 eq_refl).
      apply not_true_false in Hr. rewrite is_digit_spec in Hr. tauto.
  - injection H as H. apply run_sound in H as (u & rest & -> & -> & -> & HF & Hr).
    exists rest. cbn. repeat split; auto; try lia; try discriminate.
    + constructor; [apply is_gap_spec; assumption|].
      eapply Forall_impl; [|exact HF]. intros a. apply is_gap_spec.
    + intros _. destruct rest as [|d r2]; [exact I|]. cbn. specialize (Hr d r2 eq_refl).
      apply not_true_false in Hr. rewrite is_gap_spec in Hr. tauto.
Qed.

Lemma read_while_last : forall p u, Forall (fun c => p c = true) u ->
  read_while u p false = None /\ read_while u p true = Some (S (length u)).
Proof.
  intros p u HF. unfold read_while.
  assert (E : span_len p u = length u).
  { rewrite <- (app_nil_r u) at 1. apply span_len_app; [exact HF|discriminate]. }
  rewrite E, Nat.eqb_refl. split; reflexivity.
Qed.
Lemma read_while_more : forall p u d r, Forall (fun c => p c = true) u -> p d = false ->
  read_while (u ++ d :: r) p false = Some (S (length u)).
Proof.
  intros p u d r HF Hd. unfold read_while.
  rewrite span_len_app; [|exact HF|intros c r' H; injection H as <- <-; exact Hd].
  cbn [negb andb]. destruct (Nat.eqb_spec (length u) (length (u ++ d :: r))) as [E|E]; [|reflexivity].
  rewrite app_length in E. cbn in E. lia.
Qed.

(** The class of the first character, as computed by [read_next]. *)
Lemma letter_not : forall c, letter c -> forall x, In x
  [44;61;124;33;59;46;45;41;91;93;123;125;39;34;40;47;58;42;63]%N -> (c =? x)%N = false.
Proof.
  unfold letter. intros c Hc x Hx. apply N.eqb_neq. intros ->.
  cbn [In] in Hx. repeat (destruct Hx as [<-|Hx]; [lia|]). exact Hx.
Qed.
Lemma digit_not : forall c, digit c -> forall x, In x
  [44;61;124;33;59;46;45;41;91;93;123;125;39;34;40;47;58;42;63]%N -> (c =? x)%N = false.
Proof.
  unfold digit. intros c Hc x Hx. apply N.eqb_neq. intros ->.
  cbn [In] in Hx. repeat (destruct Hx as [<-|Hx]; [lia|]). exact Hx.
Qed.
Lemma gap_not : forall c, gap_char c -> forall x, In x
  [44;61;124;33;59;46;45;41;91;93;123;125;39;34;40;47;58;42;63]%N -> (c =? x)%N = false.
Proof.
  unfold gap_char. intros c Hc x Hx. apply N.eqb_neq. intros ->.
  cbn [In] in Hx. repeat (destruct Hx as [<-|Hx]; [lia|]). exact Hx.
Qed.
Lemma digit_not_letter : forall c, digit c -> is_letter c = false.
Proof. intros c H. apply not_true_false. rewrite is_letter_spec. unfold digit, letter in *. lia. Qed.
Lemma gap_not_letter : forall c, gap_char c -> is_letter c = false.
Proof. intros c H. apply not_true_false. rewrite is_letter_spec. unfold gap_char, letter in *. lia. Qed.
Lemma gap_not_digit : forall c, gap_char c -> is_digit c = false.
Proof. intros c H. apply not_true_false. rewrite is_digit_spec. unfold gap_char, digit in *. lia. Qed.

Definition first_not (c : char) : Prop := forall x, In x
  [44;61;124;33;59;46;45;41;91;93;123;125;39;34;40;47;58;42;63]%N -> (c =? x)%N = false.

Lemma read_next_run : forall l c r fl, first_not c ->
  read_next l (c :: r) fl =
  if negb fl && (match r with [] => true | _ => false end) then Ok None
  else if is_letter c then
    Ok (option_map (fun n => (TMeta l (firstn n (c :: r)), n)) (read_while r is_meta_char fl))
  else if is_digit c then
    Ok (option_map (fun n => (TInteger l (firstn n (c :: r)), n)) (read_while r is_digit fl))
  else if is_gap c then
    Ok (option_map (fun n => (TGap l (firstn n (c :: r)), n)) (read_while r is_gap fl))
  else Err (Error_ l (MUndefinedChar c)).
Proof.
  intros l c r fl Hn. unfold read_next, is_meta_first.
  rewrite !Hn by (cbn; tauto). cbn [orb]. reflexivity.
Qed.

Lemma firstn_run : forall (c : char) u r, firstn (S (length u)) (c :: u ++ r) = c :: u.
Proof.
  intros. cbn [firstn]. rewrite firstn_app, Nat.sub_diag, firstn_O, app_nil_r, firstn_all. reflexivity.
Qed.

Definition complete_at (l : location) (t : token) (rest : str) : Prop :=
  read_next l (tok_text t ++ rest) false = Ok (Some (t, length (tok_text t))) \/
  (rest = [] /\ read_next l (tok_text t) false = Ok None /\
   read_next l (tok_text t) true = Ok (Some (t, length (tok_text t)))).

Lemma run_complete : forall (mk : location -> str -> token) l c u p rest,
  (forall fl r, read_next l (c :: r) fl =
     if negb fl && (match r with [] => true | _ => false end) then Ok None
     else Ok (option_map (fun n => (mk l (firstn n (c :: r)), n)) (read_while r p fl))) ->
  tok_text (mk l (c :: u)) = c :: u ->
  Forall (fun c => p c = true) u ->
  (forall d r', rest = d :: r' -> p d = false) ->
  complete_at l (mk l (c :: u)) rest.
Proof.
  intros mk l c u p rest Hrn Ht HF Hr. unfold complete_at. rewrite Ht. cbn [app]. rewrite !Hrn.
  destruct rest as [|d r].
  - right.
    destruct (read_while_last _ _ HF) as (E1 & E2). rewrite E1, E2.
    cbn [option_map negb andb length].
    pose proof (firstn_run c u []) as Hf. rewrite app_nil_r in Hf. rewrite Hf.
    split; [reflexivity|]. split; [|reflexivity]. destruct u; reflexivity.
  - left. rewrite (read_while_more p u d r HF (Hr d r eq_refl)). cbn [negb andb option_map].
    rewrite firstn_run. destruct (u ++ d :: r) eqn:E; [destruct u; discriminate|reflexivity].
Qed.

Lemma read_next_complete : forall l t rest,
  valid_tok t -> tok_loc t = l -> follows t (hd_error rest) -> complete_at l t rest.
Proof.
  intros l t rest Hv Hl Hf.
  destruct t; cbn [tok_loc] in Hl; subst l0; cbn [valid_tok] in Hv.
  - (* repetition *)
    destruct rest as [|d r]; [right; repeat split; reflexivity|left]. cbn in Hf.
    unfold read_next; cbn. apply N.eqb_neq in Hf. rewrite Hf. reflexivity.
  - left. reflexivity.
  - left. reflexivity.
  - destruct Hv as [->|[->| ->]]; [left; reflexivity|left; reflexivity|].
    destruct rest as [|d r]; [right; repeat split; reflexivity|left]. cbn in Hf.
    unfold read_next; cbn. specialize (Hf eq_refl). apply N.eqb_neq in Hf. rewrite Hf. reflexivity.
  - left. reflexivity.
  - destruct Hv as [->| ->]; left; reflexivity.
  - destruct Hv as [->| ->]; left; reflexivity.
  - destruct Hv as [->| ->]; left; reflexivity.
  - destruct Hv as [->| ->]; left; reflexivity.
  - destruct Hv as [->| ->]; left; reflexivity.
  - (* start group *)
    destruct rest as [|d r]; [right; repeat split; reflexivity|left]. cbn in Hf.
    destruct Hf as (H1 & H2 & H3). unfold read_next; cbn.
    apply N.eqb_neq in H1, H2, H3. rewrite H1, H2, H3. reflexivity.
  - left. reflexivity.
  - destruct Hv.
  - (* meta *)
    destruct Hv as (c & u & -> & Hc & HF).
    apply (run_complete TMeta l c u is_meta_char); [|reflexivity| |].
    + intros fl r. rewrite read_next_run by (exact (letter_not c Hc)).
      apply is_letter_spec in Hc. rewrite Hc. reflexivity.
    + eapply Forall_impl; [|exact HF]. intros a. apply meta_char_spec.
    + intros d r' ->. cbn in Hf. apply not_true_false. rewrite meta_char_spec. tauto.
  - (* terminal *)
    destruct Hv as (Hq & Hs & HF & Hn). left. cbn [tok_text].
    assert (E : terminal_string l (q :: (s ++ [q]) ++ rest) false
                = Ok (Some (TTerminal l s q, length (q :: s ++ [q])))).
    { unfold terminal_string. rewrite <- app_assoc. cbn [app].
      rewrite scan_to_complete; [|eapply Forall_impl; [|exact HF]; intros a; apply is_terminal_spec|exact Hn].
      destruct s; [congruence|]. cbn [length]. rewrite app_length. cbn [length].
      repeat f_equal. lia. }
    rewrite <- E. cbn [app]. destruct ((s ++ [q]) ++ rest) as [|x y] eqn:Ex.
    { destruct s; discriminate. }
    destruct Hq as [->| ->]; reflexivity.
  - (* integer *)
    destruct Hv as (Hs & HF). destruct s as [|c u]; [congruence|]. inversion HF; subst.
    apply (run_complete TInteger l c u is_digit); [|reflexivity| |].
    + intros fl r. rewrite read_next_run by (exact (digit_not c H1)).
      rewrite (digit_not_letter c H1). apply is_digit_spec in H1. rewrite H1. reflexivity.
    + eapply Forall_impl; [|exact H2]. intros a. apply is_digit_spec.
    + intros d r' ->. cbn in Hf. apply not_true_false. rewrite is_digit_spec. tauto.
  - (* comment *)
    left. cbn [tok_text app].
    assert (Ec : comment l ([c_lpar; c_star] ++ (s ++ [c_star; c_rpar]) ++ rest) false
                 = Ok (Some (TComment l s, length (tok_text (TComment l s))))).
    { cbn [app]. unfold comment. apply comment_text_closing in Hv.
      replace ((s ++ [c_star; c_rpar]) ++ rest) with ((s ++ [c_star]) ++ c_rpar :: rest)
        by (rewrite <- !app_assoc; reflexivity).
      rewrite comment_loop_complete by exact Hv.
      rewrite app_length. cbn [length]. replace (length s + 1) with (S (length s)) by lia.
      rewrite <- app_assoc. rewrite firstn_app, Nat.sub_diag, firstn_O, app_nil_r, firstn_all.
      cbn [tok_text app length]. rewrite app_length. cbn [length]. repeat f_equal. lia. }
    cbn [tok_text app] in Ec. rewrite <- Ec.
    assert (Hne : forall z, (s ++ [c_star; c_rpar]) ++ rest <> c_rpar :: z).
    { intros z. destruct s as [|c0 s0]; cbn; [congruence|]. intros E. injection E as -> _.
      destruct Hv as (_ & Hp & _).
      specialize (Hp [c_star; c_rpar] (s0 ++ [c_star; c_rpar]) eq_refl).
      cbn in Hp. destruct s0; cbn in Hp; specialize (Hp ltac:(discriminate)); lia. }
    unfold read_next. cbn.
    destruct ((s ++ [c_star; c_rpar]) ++ rest) as [|x y]; [reflexivity|].
    destruct (N.eqb_spec x c_rpar) as [->|]; [exfalso; eapply Hne; reflexivity|reflexivity].
  - (* special *)
    left. cbn [tok_text].
    assert (E : special_sequence l (c_quest :: (s ++ [c_quest]) ++ rest) false
                = Ok (Some (TSpecial l s, length (c_quest :: s ++ [c_quest])))).
    { unfold special_sequence. rewrite <- app_assoc. cbn [app].
      rewrite scan_to_complete.
      - cbn [length]. rewrite app_length. cbn [length]. repeat f_equal. lia.
      - eapply Forall_impl; [|exact Hv]. intros a. apply is_special_spec.
      - intros Hin. rewrite Forall_forall in Hv. apply Hv in Hin. tauto. }
    rewrite <- E. cbn [app]. destruct ((s ++ [c_quest]) ++ rest) as [|x y] eqn:Ex.
    { destruct s; discriminate. }
    reflexivity.
  - (* gap *)
    destruct Hv as (Hs & HF). destruct s as [|c u]; [congruence|]. inversion HF; subst.
    apply (run_complete TGap l c u is_gap); [|reflexivity| |].
    + intros fl r. rewrite read_next_run by (exact (gap_not c H1)).
      rewrite (gap_not_letter c H1), (gap_not_digit c H1). apply is_gap_spec in H1. rewrite H1. reflexivity.
    + eapply Forall_impl; [|exact H2]. intros a. apply is_gap_spec.
    + intros d r' ->. cbn in Hf. apply not_true_false. rewrite is_gap_spec. tauto.
Qed.

(** An undecided buffer is either one token to its end or never becomes one. *)
Lemma read_next_flush : forall l b t n,
  read_next l b false = Ok None -> read_next l b true = Ok (Some (t, n)) ->
  n = length b /\ b = tok_text t.
Proof.
  intros l b t n H1 H2.
  assert (En : n = length b).
  { destruct b as [|c r]; [discriminate|].
    destruct r as [|d r2].
    - apply read_next_sound in H2 as (rest & Hb & -> & Hpos & _).
      assert (length (tok_text t ++ rest) = 1) by (rewrite <- Hb; reflexivity).
      rewrite app_length in H. cbn [length]. lia.
    - unfold read_next, tok_ok in H1, H2. cbn [negb andb] in H1, H2.
      ifs_in H1; try discriminate; ifs_in H2; try discriminate.
      + exfalso. unfold terminal_string in *. destruct (scan_to c is_terminal (d :: r2)) as [| |[|]]; discriminate.
      + exfalso. unfold comment in *. destruct r2 as [|e r3].
        * destruct (comment_loop d 0 _ []) as [| |[|]]; discriminate.
        * destruct (e =? c_rpar)%N; [discriminate|].
          destruct (comment_loop d 0 _ (e :: r3)) as [| |[|]]; discriminate.
      + exfalso. unfold special_sequence in *. destruct (scan_to c_quest is_special (d :: r2)) as [| |]; discriminate.
      + unfold read_while in *. cbn [negb andb] in *.
        destruct (Nat.eqb_spec (span_len is_meta_char (d :: r2)) (length (d :: r2))) as [E|E]; [|discriminate].
        cbn [option_map] in H2. injection H2 as _ <-. exact (f_equal S E).
      + unfold read_while in *. cbn [negb andb] in *.
        destruct (Nat.eqb_spec (span_len is_digit (d :: r2)) (length (d :: r2))) as [E|E]; [|discriminate].
        cbn [option_map] in H2. injection H2 as _ <-. exact (f_equal S E).
      + unfold read_while in *. cbn [negb andb] in *.
        destruct (Nat.eqb_spec (span_len is_gap (d :: r2)) (length (d :: r2))) as [E|E]; [|discriminate].
        cbn [option_map] in H2. injection H2 as _ <-. exact (f_equal S E). }
  split; [exact En|].
  apply read_next_sound in H2 as (rest & -> & -> & _).
  rewrite app_length in En. destruct rest; [rewrite app_nil_r; reflexivity|cbn in En; lia].
Qed.
