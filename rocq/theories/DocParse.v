(** The rules of the example in the documentation of the crate, put together. *)
From Coq Require Import String List NArith Arith Bool Lia.
From Verif Require Import Base Ident Tokenizer Ast Lex Syntax Graph SpecText SpecSyntax SyntaxFacts TokRun SpecParse SpecEvents SpecLaws ParseFacts EventFacts LangFacts TotalFacts TextFacts LLFacts SpecDoc DocFacts.
Import ListNotations.
Open Scope nat_scope.

Lemma run_unique : forall (P : N -> Prop) w1 r1 w2 r2, w1 ++ r1 = w2 ++ r2 -> Forall P w1 -> Forall P w2 -> ~ starts P r1 -> ~ starts P r2 ->
  w1 = w2 /\ r1 = r2.
Proof.
  intros P. induction w1 as [|c w1 IH]; intros r1 [|c2 w2] r2 E H1 H2 N1 N2; cbn [app] in E; [auto| | |].
  - subst. inversion H2; subst. exfalso. apply N1. assumption.
  - subst. inversion H1; subst. exfalso. apply N2. assumption.
  - injection E as -> E. inversion H1; inversion H2; subst. destruct (IH _ _ _ E) as (-> & ->); auto.
Qed.

Section Example.
Variable rs : list rule.
Variable cfg : config.
Variables sp vis : N -> bool.
Notation space := (fun c => sp c = true).
Notation visible := (fun c => vis c = true).
Notation alnum := (fun c => upper c \/ numeric c).
Notation takes := (takes rs cfg).
Notation refuses := (refuses rs cfg).
Notation fails := (fails rs cfg).
Notation ev := (ev rs cfg).
Hypothesis Hsp : forall c, upper c \/ numeric c -> sp c = false.
Definition k_space := of_string " white space characters ".
Definition k_visible := of_string " all visible characters ".
Hypothesis Cspace : forall l, cfg l k_space = ScChars sp (Some 1%N) None.
Hypothesis Cvisible : forall l, cfg l k_visible = ScChars vis (Some 1%N) (Some 1%N).
Definition i_letter := of_string "alphabetic character".
Definition i_digit := of_string "digit".
Definition i_space := of_string "white space".
Definition i_visible := of_string "all characters".
Definition i_identifier := of_string "identifier".
Definition i_number := of_string "number".
Definition i_string := of_string "string".
Definition i_assignment := of_string "assignment".
Definition i_program := of_string "program".
Variables r_letter r_digit r_space r_visible r_identifier r_number r_string r_assignment r_program : rule.
Hypothesis N_letter : names rs i_letter r_letter.
Hypothesis N_digit : names rs i_digit r_digit.
Hypothesis N_space : names rs i_space r_space.
Hypothesis N_visible : names rs i_visible r_visible.
Hypothesis N_identifier : names rs i_identifier r_identifier.
Hypothesis N_number : names rs i_number r_number.
Hypothesis N_string : names rs i_string r_string.
Hypothesis N_assignment : names rs i_assignment r_assignment.
Hypothesis N_program : names rs i_program r_program.
Variables x1 x2 y1 y2 : location * N.
Variables xs ys : list (location * N).
Hypothesis D_letter : r_defs r_letter = choice (x1 :: x2 :: xs).
Hypothesis Letters : forall c, upper c <-> In c (map snd (x1 :: x2 :: xs)).
Hypothesis D_digit : r_defs r_digit = choice (y1 :: y2 :: ys).
Hypothesis Digits : forall c, numeric c <-> In c (map snd (y1 :: y2 :: ys)).
Variables l1 l2 l3 l4 l5 l6 l7 l8 l9 l10 l11 l12 l13 l14 l15 l16 l17 l18 l19 l20 l21 l22 l23 l24 l25 l26 l27 l28 l29 l30 l31 l32 l33 : location.
Hypothesis D_space : r_defs r_space = [[just (PSpecial l1 k_space)]].
Hypothesis D_visible : r_defs r_visible = [[just (PSpecial l2 k_visible)]].
Hypothesis D_identifier : r_defs r_identifier =
  [[just (PMeta l3 i_letter); just (PRepeated l4 [[just (PMeta l5 i_letter)]; [just (PMeta l6 i_digit)]])]].
Hypothesis D_number : r_defs r_number =
  [[just (POptional l7 [[just (PTerminal l8 (of_string "-"))]]); just (PMeta l9 i_digit); just (PRepeated l10 [[just (PMeta l11 i_digit)]])]].
Hypothesis D_string : r_defs r_string =
  [[just (PTerminal l12 [34%N]);
    just (PRepeated l13 [[Term (Factor 1 (PMeta l14 i_visible)) (Some (Factor 1 (PTerminal l15 [34%N])))]]);
    just (PTerminal l16 [34%N])]].
Hypothesis D_assignment : r_defs r_assignment =
  [[just (PMeta l17 i_identifier); just (PTerminal l18 (of_string ":="));
    just (PGrouped l19 [[just (PMeta l20 i_number)]; [just (PMeta l21 i_identifier)]; [just (PMeta l22 i_string)]])]].
Hypothesis D_program : r_defs r_program =
  [[just (PTerminal l23 (of_string "PROGRAM")); just (PMeta l24 i_space); just (PMeta l25 i_identifier); just (PMeta l26 i_space);
    just (PTerminal l27 (of_string "BEGIN")); just (PMeta l28 i_space);
    just (PRepeated l29 [[just (PMeta l30 i_assignment); just (PTerminal l31 (of_string ";")); just (PMeta l32 i_space)]]);
    just (PTerminal l33 (of_string "END."))]].

Lemma upper_dec : forall c, upper c \/ ~ upper c. Proof. intros c. unfold upper. lia. Qed.
Lemma numeric_dec : forall c, numeric c \/ ~ numeric c. Proof. intros c. unfold numeric. lia. Qed.
Lemma alnum_dec : forall c, alnum c \/ ~ alnum c. Proof. intros c. unfold upper, numeric. lia. Qed.
Lemma bool_dec : forall (p : N -> bool) c, p c = true \/ p c <> true. Proof. intros p c. destruct (p c); auto. Qed.

Lemma letter_reads : forall l, reads_one rs cfg upper (NPrim (PMeta l i_letter)).
Proof. intros l. apply (reads_meta rs cfg upper l _ _ N_letter). rewrite D_letter. apply choice_reads. exact Letters. Qed.
Lemma digit_reads : forall l, reads_one rs cfg numeric (NPrim (PMeta l i_digit)).
Proof. intros l. apply (reads_meta rs cfg numeric l _ _ N_digit). rewrite D_digit. apply choice_reads. exact Digits. Qed.
Lemma alnum_reads : forall l l', reads_one rs cfg alnum (NDefs [[just (PMeta l i_letter)]; [just (PMeta l' i_digit)]]).
Proof.
  intros l l'. apply reads_either; [| |apply upper_dec]; apply reads_single; try discriminate; [apply letter_reads|apply digit_reads].
Qed.
Lemma digits_reads : forall l, reads_one rs cfg numeric (NDefs [[just (PMeta l i_digit)]]).
Proof.
  intros l. destruct (reads_single rs cfg numeric (PMeta l i_digit) ltac:(discriminate) (digit_reads l)) as (A & B). split.
  - intros s c r E H. destruct (A s c r E H) as (s' & T & R). exists s'. split; [apply takes_one; exact T|exact R].
  - intros s H. apply refuses_one, B, H.
Qed.

(** Gaps. *)
Lemma gap_takes : forall l s w r, p_rest s = w ++ r -> a_gap space w -> ~ starts space r ->
  exists s', takes (NTerm (just (PMeta l i_space))) s w s' /\ p_rest s' = r.
Proof.
  intros l s w r E (Hne & Hw) Hr. destruct (place _ _ _ E) as (s' & G & R). exists s'. split; [|exact R].
  apply takes_just, (takes_meta rs cfg l _ _ _ _ _ N_space). rewrite D_space. apply takes_one, takes_last; [reflexivity|]. apply takes_just.
  split; [exact G|]. eexists. split; [apply ev_special; rewrite Cspace; apply (sn_chars _ _ _ _ _ w s')|].
  - split; [exact G|]. split; [exact Hw|]. split; [discriminate|]. rewrite R. destruct r as [|c r']; [left; reflexivity|]. right. right. exists c, r'.
    split; [reflexivity|]. cbn in Hr. destruct (sp c); [congruence|reflexivity].
  - intros (m & [= <-] & Hm). destruct w; [congruence|]. cbn [length] in Hm. lia.
  - eapply tr_token; [exact G|apply tr_nil].
Qed.
Lemma gap_refuses : forall l s, ~ starts space (p_rest s) -> refuses (NTerm (just (PMeta l i_space))) s.
Proof.
  intros l s Hs. apply refuses_just, (refuses_meta rs cfg l _ _ _ N_space). rewrite D_space. apply fails_one, refuses_fails, refuses_seq; [reflexivity|].
  apply refuses_just. do 2 eexists. apply ev_special_no. rewrite Cspace. apply (sn_chars_no _ _ _ _ _ [] s).
  - split; [apply goes_nil|]. split; [constructor|]. split; [discriminate|]. destruct (p_rest s) as [|c r] eqn:E; [left; reflexivity|]. right. right. exists c, r.
    split; [reflexivity|]. cbn in Hs. destruct (sp c); [congruence|reflexivity].
  - exists 1%N. split; [reflexivity|]. cbn. lia.
Qed.
Lemma gap_at : forall l s, (exists w r s', p_rest s = w ++ r /\ a_gap space w /\ ~ starts space r /\ takes (NTerm (just (PMeta l i_space))) s w s' /\ p_rest s' = r) \/
  refuses (NTerm (just (PMeta l i_space))) s.
Proof.
  intros l s. destruct (span space (bool_dec sp) (p_rest s)) as ([|c w] & r & E & Hw & Hr).
  - right. apply gap_refuses. rewrite E. exact Hr.
  - left. assert (Hg : a_gap space (c :: w)) by (split; [discriminate|exact Hw]). destruct (gap_takes l s _ r E Hg Hr) as (s' & T & R). exists (c :: w), r, s'. auto.
Qed.

(** Identifiers. *)
Lemma identifier_takes : forall l s w r, p_rest s = w ++ r -> an_identifier w -> ~ starts alnum r -> (N.of_nat (length w) <= max_count)%N ->
  exists s', takes (NPrim (PMeta l i_identifier)) s w s' /\ p_rest s' = r.
Proof.
  intros l s w r E (c & v & -> & Hc & Hv) Hr Hl. cbn [app length] in *. destruct (proj1 (letter_reads l3) s c (v ++ r) E Hc) as (s1 & T1 & R1).
  destruct (takes_repeated rs cfg alnum l4 _ (alnum_reads l5 l6) s1 v r R1 Hv Hr ltac:(lia)) as (s2 & T2 & R2). exists s2. split; [|exact R2].
  apply (takes_meta rs cfg l _ _ _ _ _ N_identifier). rewrite D_identifier. apply takes_one. change (c :: v) with ([c] ++ v).
  eapply takes_seq; [reflexivity|apply takes_just; exact T1|]. apply takes_last; [reflexivity|exact T2].
Qed.
Lemma identifier_refuses : forall l s, ~ starts upper (p_rest s) -> refuses (NPrim (PMeta l i_identifier)) s.
Proof.
  intros l s Hs. apply (refuses_meta rs cfg l _ _ _ N_identifier). rewrite D_identifier. apply fails_one, refuses_fails, refuses_seq; [reflexivity|].
  apply refuses_just, (proj2 (letter_reads l3)), Hs.
Qed.
Lemma identifier_at : forall l s, (N.of_nat (length (p_rest s)) <= max_count)%N ->
  (exists w r s', p_rest s = w ++ r /\ an_identifier w /\ ~ starts alnum r /\ takes (NPrim (PMeta l i_identifier)) s w s' /\ p_rest s' = r) \/
  (refuses (NPrim (PMeta l i_identifier)) s /\ ~ starts upper (p_rest s)).
Proof.
  intros l s Hl. destruct (p_rest s) as [|c t] eqn:E; [right; split; [apply identifier_refuses; rewrite E|]; auto|].
  destruct (upper_dec c) as [Hc|Hc]; [|right; split; [apply identifier_refuses; rewrite E|]; exact Hc].
  destruct (span alnum alnum_dec t) as (v & r & -> & Hv & Hr). left. cbn [length] in Hl. rewrite app_length in Hl.
  assert (Hi : an_identifier (c :: v)) by (exists c, v; auto).
  destruct (identifier_takes l s (c :: v) r E Hi Hr) as (s' & T & R); [cbn [length]; lia|]. exists (c :: v), r, s'. auto.
Qed.

(** Numbers. *)
Lemma minus_takes : forall s r, p_rest s = 45%N :: r -> exists s', takes (NTerm (just (POptional l7 [[just (PTerminal l8 (of_string "-"))]]))) s (of_string "-") s' /\ p_rest s' = r.
Proof.
  intros s r E. destruct (takes_terminal rs cfg l8 (of_string "-") s r E) as (s' & T & R). exists s'. split; [|exact R]. apply takes_just.
  assert (T' : takes (NDefs [[just (PTerminal l8 (of_string "-"))]]) s (of_string "-") s') by (apply takes_one, takes_last; [reflexivity|]; apply takes_just; exact T).
  destruct T' as (G & e & V & Tr). split; [exact G|]. exists (e ++ []). split; [|rewrite app_nil_r; exact Tr]. apply ev_optional.
  eapply ev_times_more; [lia|discriminate|exact V|]. apply ev_times_end. lia.
Qed.
Lemma minus_not : forall s, ~ starts (eq 45%N) (p_rest s) -> takes (NTerm (just (POptional l7 [[just (PTerminal l8 (of_string "-"))]]))) s [] s.
Proof.
  intros s Hs. apply takes_just. assert (T : refuses (NDefs [[just (PTerminal l8 (of_string "-"))]]) s).
  { apply refuses_one, refuses_seq; [reflexivity|]. apply refuses_just, refuses_terminal. intros r E. apply Hs. rewrite E. reflexivity. }
  destruct T as (x & s' & V). split; [apply goes_nil|]. exists []. split; [|apply tr_nil]. apply ev_optional. eapply ev_times_stop; [lia|lia|exact V].
Qed.
(** The digits of a number. *)
Lemma digits_take : forall s w r, p_rest s = w ++ r -> w <> [] -> Forall numeric w -> ~ starts numeric r -> (N.of_nat (length w) <= max_count)%N ->
  exists s', takes (NSeq [just (PMeta l9 i_digit); just (PRepeated l10 [[just (PMeta l11 i_digit)]])]) s w s' /\ p_rest s' = r.
Proof.
  intros s w r E Hne Hw Hr Hl. destruct w as [|c v]; [congruence|]. inversion Hw as [|? ? Hc Hv]; subst. cbn [app length] in *.
  destruct (proj1 (digit_reads l9) s c (v ++ r) E Hc) as (s1 & T1 & R1).
  destruct (takes_repeated rs cfg numeric l10 _ (digits_reads l11) s1 v r R1 Hv Hr ltac:(lia)) as (s2 & T2 & R2). exists s2. split; [|exact R2].
  change (c :: v) with ([c] ++ v). eapply takes_seq; [reflexivity|apply takes_just; exact T1|]. apply takes_last; [reflexivity|exact T2].
Qed.
Lemma digits_refuse : forall s, ~ starts numeric (p_rest s) -> refuses (NSeq [just (PMeta l9 i_digit); just (PRepeated l10 [[just (PMeta l11 i_digit)]])]) s.
Proof. intros s Hs. apply refuses_seq; [reflexivity|]. apply refuses_just, (proj2 (digit_reads l9)), Hs. Qed.
Lemma numeric_minus : forall w, w <> [] -> Forall numeric w -> forall r, ~ starts (eq 45%N) (w ++ r).
Proof. intros [|c w] Hne Hw r; [congruence|]. inversion Hw as [|? ? Hc _]; subst. cbn. unfold numeric in Hc. intros E. subst c. lia. Qed.
Lemma number_takes : forall l s w r, p_rest s = w ++ r -> a_number w -> ~ starts numeric r -> (N.of_nat (length w) <= max_count)%N ->
  exists s', takes (NPrim (PMeta l i_number)) s w s' /\ p_rest s' = r.
Proof.
  intros l s w r E (sg & v & -> & Hsg & Hne & Hv) Hr Hl. rewrite <- app_assoc in E. rewrite app_length in Hl.
  assert (K : exists s1, takes (NTerm (just (POptional l7 [[just (PTerminal l8 (of_string "-"))]]))) s sg s1 /\ p_rest s1 = v ++ r).
  { destruct Hsg as [->| ->]; [|apply minus_takes; exact E]. exists s. split; [|exact E]. apply minus_not. rewrite E. exact (numeric_minus v Hne Hv r). }
  destruct K as (s1 & T1 & R1). destruct (digits_take s1 v r R1 Hne Hv Hr ltac:(lia)) as (s2 & T2 & R2). exists s2. split; [|exact R2].
  apply (takes_meta rs cfg l _ _ _ _ _ N_number). rewrite D_number. apply takes_one. eapply takes_seq; [reflexivity|exact T1|exact T2].
Qed.
Lemma number_at : forall l s, (N.of_nat (length (p_rest s)) <= max_count)%N ->
  (exists w r s', p_rest s = w ++ r /\ a_number w /\ ~ starts numeric r /\ takes (NPrim (PMeta l i_number)) s w s' /\ p_rest s' = r) \/
  (refuses (NPrim (PMeta l i_number)) s /\ forall w r, p_rest s = w ++ r -> ~ a_number w).
Proof.
  intros l s Hl.
  assert (K : exists sg s1, (sg = [] \/ sg = of_string "-") /\ takes (NTerm (just (POptional l7 [[just (PTerminal l8 (of_string "-"))]]))) s sg s1 /\ p_rest s = sg ++ p_rest s1 /\
    (sg = [] -> ~ starts (eq 45%N) (p_rest s))).
  { destruct (p_rest s) as [|c t] eqn:E; [exists [], s; split; [auto|]; split; [apply minus_not; rewrite E; auto|]; rewrite E; auto|].
    destruct (N.eq_dec 45 c) as [<-|Hc].
    - destruct (minus_takes s t E) as (s' & T & R). exists (of_string "-"), s'. rewrite R. split; [auto|]. split; [exact T|]. split; [reflexivity|discriminate].
    - exists [], s. split; [auto|]. split; [apply minus_not; rewrite E; exact Hc|]. rewrite E. auto. }
  destruct K as (sg & s1 & Hsg & T1 & E & Hm). destruct (span numeric numeric_dec (p_rest s1)) as ([|c v] & r & E1 & Hv & Hr).
  - right. split.
    + apply (refuses_meta rs cfg l _ _ _ N_number). rewrite D_number. apply fails_one. eapply fails_seq; [reflexivity|exact T1|].
      apply refuses_fails, digits_refuse. rewrite E1. exact Hr.
    + intros w r' E2 (sg' & v' & -> & Hsg' & Hne & Hv'). cbn [app] in E1. rewrite E, E1 in E2. rewrite <- app_assoc in E2.
      destruct v' as [|c' v']; [congruence|]. pose proof (Forall_inv Hv') as Hc'. cbn beta in Hc'. apply Hr.
      destruct Hsg as [->| ->], Hsg' as [->| ->]; cbn [app of_string] in E2.
      * rewrite E2. exact Hc'.
      * exfalso. apply (Hm eq_refl). rewrite E, E1, E2. reflexivity.
      * exfalso. cbn in E2. injection E2 as E2 _. subst c'. unfold numeric in Hc'. lia.
      * cbn in E2. injection E2 as E2. rewrite E2. exact Hc'.
  - left. assert (Hn : a_number (sg ++ c :: v)) by (exists sg, (c :: v); split; [reflexivity|]; split; [exact Hsg|]; split; [discriminate|exact Hv]).
    rewrite E1, app_assoc in E. assert (Hlen : (N.of_nat (length (sg ++ c :: v)) <= max_count)%N) by (rewrite E, app_length in Hl; lia).
    destruct (number_takes l s _ r E Hn Hr Hlen) as (s' & T & R). exists (sg ++ c :: v), r, s'. auto.
Qed.

(** Strings. *)
Notation inside := (fun c => vis c = true /\ c <> 34%N).
Lemma inside_dec : forall c, inside c \/ ~ inside c.
Proof. intros c. cbn beta. destruct (vis c); [destruct (N.eq_dec c 34); [right; intros (_ & K); contradiction|left; auto]|right; intros (K & _); discriminate]. Qed.
Lemma visible_takes : forall s c r, p_rest s = c :: r -> vis c = true -> exists s', takes (NFactor (Factor 1 (PMeta l14 i_visible))) s [c] s' /\ p_rest s' = r.
Proof.
  intros s c r E Hc. destruct (place s [c] r E) as (s' & G & R). exists s'. split; [|exact R].
  assert (T : takes (NPrim (PMeta l14 i_visible)) s [c] s').
  { apply (takes_meta rs cfg l14 _ _ _ _ _ N_visible). rewrite D_visible. apply takes_one, takes_last; [reflexivity|]. apply takes_just.
    split; [exact G|]. eexists. split; [apply ev_special; rewrite Cvisible; apply (sn_chars _ _ _ _ _ [c] s')|].
    - split; [exact G|]. split; [constructor; [exact Hc|constructor]|]. split; [intros m [= <-]; cbn; lia|]. right. left. reflexivity.
    - intros (m & [= <-] & Hm). cbn [length] in Hm. lia.
    - eapply tr_token; [exact G|apply tr_nil]. }
  destruct T as (_ & e & V & T). split; [exact G|]. exists e. split; [apply ev_factor_one; exact V|exact T].
Qed.
Lemma visible_refuses : forall s, ~ starts visible (p_rest s) -> refuses (NFactor (Factor 1 (PMeta l14 i_visible))) s.
Proof.
  intros s Hs. assert (T : refuses (NPrim (PMeta l14 i_visible)) s).
  { apply (refuses_meta rs cfg l14 _ _ _ N_visible). rewrite D_visible. apply fails_one, refuses_fails, refuses_seq; [reflexivity|].
    apply refuses_just. do 2 eexists. apply ev_special_no. rewrite Cvisible. apply (sn_chars_no _ _ _ _ _ [] s).
    - split; [apply goes_nil|]. split; [constructor|]. split; [intros m [= <-]; cbn; lia|]. destruct (p_rest s) as [|c r] eqn:E; [left; reflexivity|]. right. right. exists c, r.
      split; [reflexivity|]. cbn in Hs. destruct (vis c); [congruence|reflexivity].
    - exists 1%N. split; [reflexivity|]. cbn. lia. }
  destruct T as (x & s' & V). do 2 eexists. apply ev_factor_one. exact V.
Qed.
Lemma inside_reads : reads_one rs cfg inside (NDefs [[Term (Factor 1 (PMeta l14 i_visible)) (Some (Factor 1 (PTerminal l15 [34%N])))]]).
Proof.
  split.
  - intros s c r E (Hc & Hq). destruct (visible_takes s c r E Hc) as (s' & (G & e & V & T) & R). exists s'. split; [|exact R].
    apply takes_one, takes_last; [reflexivity|]. split; [exact G|]. exists e. split; [|exact T].
    assert (X : refuses (NPrim (PTerminal l15 [34%N])) (Pst [c] (p_at s))) by (apply refuses_terminal; cbn; congruence).
    destruct X as (x & s2 & X). eapply ev_term_kept; [exact V|exact G|apply ev_factor_one; exact X|right; eauto].
  - intros s Hs. apply refuses_one, refuses_seq; [reflexivity|]. destruct (p_rest s) as [|c r] eqn:E.
    + destruct (visible_refuses s) as (x & s' & V); [rewrite E; auto|]. do 2 eexists. eapply ev_term_no. exact V.
    + destruct (bool_dec vis c) as [Hc|Hc].
      * destruct (visible_takes s c r E Hc) as (s' & (G & e & V & T) & R). destruct (N.eq_dec c 34) as [->|Hq]; [|exfalso; apply Hs; split; assumption].
        destruct (takes_terminal rs cfg l15 [34%N] (Pst [34%N] (p_at s)) [] eq_refl) as (s2 & (G2 & e2 & V2 & _) & R2).
        do 2 eexists. eapply ev_term_excepted; [exact V|exact G|apply ev_factor_one; exact V2|exact R2].
      * destruct (visible_refuses s) as (x & s' & V); [rewrite E; exact Hc|]. do 2 eexists. eapply ev_term_no. exact V.
Qed.
Lemma string_takes : forall l s w r, p_rest s = w ++ r -> a_string visible w -> (N.of_nat (length w) <= max_count)%N ->
  exists s', takes (NPrim (PMeta l i_string)) s w s' /\ p_rest s' = r.
Proof.
  intros l s w r E (v & -> & Hv) Hl. cbn [app length] in *. rewrite <- app_assoc in E. rewrite app_length in Hl.
  destruct (takes_terminal rs cfg l12 [34%N] s (v ++ [34%N] ++ r) E) as (s1 & T1 & R1).
  destruct (takes_repeated rs cfg inside l13 _ inside_reads s1 v _ R1 Hv) as (s2 & T2 & R2); [cbn; intuition congruence|lia|].
  destruct (takes_terminal rs cfg l16 [34%N] s2 r R2) as (s3 & T3 & R3). exists s3. split; [|exact R3].
  apply (takes_meta rs cfg l _ _ _ _ _ N_string). rewrite D_string. apply takes_one. change (34%N :: v ++ [34%N]) with ([34%N] ++ v ++ [34%N]).
  eapply takes_seq; [reflexivity|apply takes_just; exact T1|]. eapply takes_seq; [reflexivity|exact T2|]. apply takes_last; [reflexivity|]. apply takes_just. exact T3.
Qed.
Lemma string_at : forall l s, (N.of_nat (length (p_rest s)) <= max_count)%N ->
  (exists w r s', p_rest s = w ++ r /\ a_string visible w /\ takes (NPrim (PMeta l i_string)) s w s' /\ p_rest s' = r) \/
  refuses (NPrim (PMeta l i_string)) s.
Proof.
  intros l s Hl. destruct (terminal_at rs cfg l12 [34%N] s) as [(s1 & T1 & E1)|(T1 & _)].
  - destruct (span inside inside_dec (p_rest s1)) as (v & r & E2 & Hv & Hr). rewrite E1, E2 in Hl. cbn [length app] in Hl. rewrite app_length in Hl.
    destruct (takes_repeated rs cfg inside l13 _ inside_reads s1 v r E2 Hv Hr ltac:(lia)) as (s2 & T2 & R2).
    destruct (terminal_at rs cfg l16 [34%N] s2) as [(s3 & T3 & E3)|(T3 & _)].
    + left. assert (Hs : a_string visible (34%N :: v ++ [34%N])) by (exists v; auto).
      assert (E : p_rest s = (34%N :: v ++ [34%N]) ++ p_rest s3) by (rewrite E1, E2; cbn [app]; rewrite <- app_assoc, <- R2, E3; reflexivity).
      destruct (string_takes l s _ _ E Hs) as (s' & T & R); [cbn [length]; rewrite app_length; cbn [length]; rewrite <- R2, E3 in Hl; cbn [length app] in Hl; lia|].
      exists (34%N :: v ++ [34%N]), (p_rest s3), s'. auto.
    + right. apply (refuses_meta rs cfg l _ _ _ N_string). rewrite D_string. apply fails_one.
      eapply fails_seq; [reflexivity|apply takes_just; exact T1|]. eapply fails_seq; [reflexivity|exact T2|]. apply refuses_fails, refuses_seq; [reflexivity|].
      apply refuses_just. exact T3.
  - right. apply (refuses_meta rs cfg l _ _ _ N_string). rewrite D_string. apply fails_one, refuses_fails, refuses_seq; [reflexivity|]. apply refuses_just. exact T1.
Qed.

(** Assignments. *)
Lemma number_first : forall w r, a_number w -> starts (fun c => c = 45%N \/ numeric c) (w ++ r).
Proof.
  intros w r (sg & v & -> & [->| ->] & Hne & Hv); [|left; reflexivity]. destruct v as [|c v]; [congruence|]. right. exact (Forall_inv Hv).
Qed.
Lemma number_refuses : forall l s, (N.of_nat (length (p_rest s)) <= max_count)%N -> ~ starts (fun c => c = 45%N \/ numeric c) (p_rest s) -> refuses (NPrim (PMeta l i_number)) s.
Proof.
  intros l s Hl Hs. destruct (number_at l s Hl) as [(w & r & _ & E & Hn & _)|(H & _)]; [|exact H]. exfalso. apply Hs. rewrite E. apply number_first. exact Hn.
Qed.
Definition values : definition_list := [[just (PMeta l20 i_number)]; [just (PMeta l21 i_identifier)]; [just (PMeta l22 i_string)]].
Lemma fails_alt : forall l id s, refuses (NPrim (PMeta l id)) s -> fails (NSeq [just (PMeta l id)]) s.
Proof. intros l id s H. apply refuses_fails, refuses_seq; [reflexivity|]. apply refuses_just. exact H. Qed.
Lemma takes_alt : forall l id s w s', takes (NPrim (PMeta l id)) s w s' -> takes (NSeq [just (PMeta l id)]) s w s'.
Proof. intros l id s w s' H. apply takes_last; [reflexivity|]. apply takes_just. exact H. Qed.
Lemma value_takes : forall s v r, p_rest s = v ++ r -> a_number v \/ an_identifier v \/ a_string visible v -> ~ starts alnum r ->
  (N.of_nat (length (p_rest s)) <= max_count)%N -> exists s', takes (NDefs values) s v s' /\ p_rest s' = r.
Proof.
  intros s v r E Hv Hr Hl. assert (Hlv : (N.of_nat (length v) <= max_count)%N) by (rewrite E, app_length in Hl; lia). unfold values. destruct Hv as [Hv|[Hv|Hv]].
  - destruct (number_takes l20 s v r E Hv) as (s' & T & R); [destruct r; [auto|intros K; apply Hr; right; exact K]|exact Hlv|]. exists s'. split; [|exact R].
    refine (takes_alts rs cfg [] _ [_; _] s v s' ltac:(discriminate) (Forall_nil _) _). apply takes_alt. exact T.
  - assert (F1 : fails (NSeq [just (PMeta l20 i_number)]) s).
    { apply fails_alt, number_refuses; [exact Hl|]. rewrite E. destruct Hv as (c & t & -> & Hc & _). cbn. unfold upper, numeric in *. lia. }
    destruct (identifier_takes l21 s v r E Hv Hr Hlv) as (s' & T & R). exists s'. split; [|exact R].
    refine (takes_alts rs cfg [_] _ [_] s v s' ltac:(discriminate) _ _); [constructor; [exact F1|constructor]|]. apply takes_alt. exact T.
  - assert (F1 : fails (NSeq [just (PMeta l20 i_number)]) s).
    { apply fails_alt, number_refuses; [exact Hl|]. rewrite E. destruct Hv as (t & -> & _). cbn. unfold numeric in *. lia. }
    assert (F2 : fails (NSeq [just (PMeta l21 i_identifier)]) s).
    { apply fails_alt, identifier_refuses. rewrite E. destruct Hv as (t & -> & _). cbn. unfold upper in *. lia. }
    destruct (string_takes l22 s v r E Hv Hlv) as (s' & T & R). exists s'. split; [|exact R].
    refine (takes_alts rs cfg [_; _] _ [] s v s' ltac:(discriminate) _ _); [constructor; [exact F1|constructor; [exact F2|constructor]]|]. apply takes_alt. exact T.
Qed.
Lemma value_at : forall s, (N.of_nat (length (p_rest s)) <= max_count)%N ->
  (exists v s', takes (NDefs values) s v s' /\ (a_number v \/ an_identifier v \/ a_string visible v)) \/ fails (NDefs values) s.
Proof.
  intros s Hl. unfold values.
  destruct (number_at l20 s Hl) as [(v & r & s' & E & Hv & _ & T & _)|(F1 & _)].
  { left. exists v, s'. split; [|auto]. refine (takes_alts rs cfg [] _ [_; _] s v s' ltac:(discriminate) (Forall_nil _) _). apply takes_alt. exact T. }
  apply fails_alt in F1. destruct (identifier_at l21 s Hl) as [(v & r & s' & E & Hv & _ & T & _)|(F2 & _)].
  { left. exists v, s'. split; [|auto]. refine (takes_alts rs cfg [_] _ [_] s v s' ltac:(discriminate) _ _); [constructor; [exact F1|constructor]|]. apply takes_alt. exact T. }
  apply fails_alt in F2. destruct (string_at l22 s Hl) as [(v & r & s' & E & Hv & T & _)|F3].
  { left. exists v, s'. split; [|auto]. refine (takes_alts rs cfg [_; _] _ [] s v s' ltac:(discriminate) _ _); [constructor; [exact F1|constructor; [exact F2|constructor]]|]. apply takes_alt. exact T. }
  apply fails_alt in F3. right. apply refuses_fails, refuses_alts. repeat (constructor; [assumption|]). constructor.
Qed.
Lemma shorter : forall s w s', goes s w s' -> (N.of_nat (length (p_rest s)) <= max_count)%N -> (N.of_nat (length (p_rest s')) <= max_count)%N.
Proof. intros s w s' (G & _) H. rewrite G, app_length in H. lia. Qed.
Lemma not_alnum : forall c t, ~ (upper c \/ numeric c) -> ~ starts alnum (c :: t).
Proof. intros c t H. exact H. Qed.
Lemma assignment_takes : forall l s w r, p_rest s = w ++ r -> an_assignment visible w -> ~ starts alnum r -> (N.of_nat (length (p_rest s)) <= max_count)%N ->
  exists s', takes (NPrim (PMeta l i_assignment)) s w s' /\ p_rest s' = r.
Proof.
  intros l s w r E (x & v & -> & Hx & Hv) Hr Hl. rewrite <- !app_assoc in E.
  destruct (identifier_takes l17 s x _ E Hx) as (s1 & T1 & R1); [cbn; unfold upper, numeric; lia|rewrite E, app_length in Hl; lia|].
  destruct (takes_terminal rs cfg l18 (of_string ":=") s1 _ R1) as (s2 & T2 & R2).
  destruct (value_takes s2 v r R2 Hv Hr) as (s3 & T3 & R3); [exact (shorter _ _ _ (proj1 T2) (shorter _ _ _ (proj1 T1) Hl))|]. exists s3. split; [|exact R3].
  apply (takes_meta rs cfg l _ _ _ _ _ N_assignment). rewrite D_assignment. apply takes_one.
  eapply takes_seq; [reflexivity|apply takes_just; exact T1|]. eapply takes_seq; [reflexivity|apply takes_just; exact T2|]. apply takes_group. exact T3.
Qed.
Lemma assignment_at : forall l s, (N.of_nat (length (p_rest s)) <= max_count)%N ->
  (exists w s', takes (NPrim (PMeta l i_assignment)) s w s' /\ an_assignment visible w) \/ refuses (NPrim (PMeta l i_assignment)) s.
Proof.
  intros l s Hl. destruct (identifier_at l17 s Hl) as [(x & r & s1 & _ & Hx & _ & T1 & _)|(F1 & _)].
  2: { right. apply (refuses_meta rs cfg l _ _ _ N_assignment). rewrite D_assignment. apply fails_one, refuses_fails, refuses_seq; [reflexivity|]. apply refuses_just. exact F1. }
  pose proof (shorter _ _ _ (proj1 T1) Hl) as Hl1.
  destruct (terminal_at rs cfg l18 (of_string ":=") s1) as [(s2 & T2 & _)|(F2 & _)].
  2: { right. apply (refuses_meta rs cfg l _ _ _ N_assignment). rewrite D_assignment. apply fails_one. eapply fails_seq; [reflexivity|apply takes_just; exact T1|].
       apply refuses_fails, refuses_seq; [reflexivity|]. apply refuses_just. exact F2. }
  destruct (value_at s2 (shorter _ _ _ (proj1 T2) Hl1)) as [(v & s3 & T3 & Hv)|F3].
  - left. exists (x ++ of_string ":=" ++ v), s3. split; [|exists x, v; auto]. apply (takes_meta rs cfg l _ _ _ _ _ N_assignment). rewrite D_assignment. apply takes_one.
    eapply takes_seq; [reflexivity|apply takes_just; exact T1|]. eapply takes_seq; [reflexivity|apply takes_just; exact T2|]. apply takes_group. exact T3.
  - right. apply (refuses_meta rs cfg l _ _ _ N_assignment). rewrite D_assignment. apply fails_one. eapply fails_seq; [reflexivity|apply takes_just; exact T1|].
    eapply fails_seq; [reflexivity|apply takes_just; exact T2|]. apply fails_group. exact F3.
Qed.

(** The body of a program. *)
Definition round : definition_list := [[just (PMeta l30 i_assignment); just (PTerminal l31 (of_string ";")); just (PMeta l32 i_space)]].
Lemma round_at : forall s, (N.of_nat (length (p_rest s)) <= max_count)%N ->
  (exists a g s', takes (NDefs round) s (a ++ of_string ";" ++ g) s' /\ an_assignment visible a /\ a_gap space g) \/ fails (NDefs round) s.
Proof.
  intros s Hl. unfold round. destruct (assignment_at l30 s Hl) as [(a & s1 & T1 & Ha)|F1].
  2: { right. apply fails_one, refuses_fails, refuses_seq; [reflexivity|]. apply refuses_just. exact F1. }
  destruct (terminal_at rs cfg l31 (of_string ";") s1) as [(s2 & T2 & _)|(F2 & _)].
  2: { right. apply fails_one. eapply fails_seq; [reflexivity|apply takes_just; exact T1|]. apply refuses_fails, refuses_seq; [reflexivity|]. apply refuses_just. exact F2. }
  destruct (gap_at l32 s2) as [(g & r & s3 & _ & Hg & _ & T3 & _)|F3].
  - left. exists a, g, s3. split; [|auto]. apply takes_one. eapply takes_seq; [reflexivity|apply takes_just; exact T1|]. eapply takes_seq; [reflexivity|apply takes_just; exact T2|].
    apply takes_last; [reflexivity|exact T3].
  - right. apply fails_one. eapply fails_seq; [reflexivity|apply takes_just; exact T1|]. eapply fails_seq; [reflexivity|apply takes_just; exact T2|].
    apply refuses_fails, refuses_seq; [reflexivity|exact F3].
Qed.
Lemma body_at : forall n s i, length (p_rest s) <= n -> (i + N.of_nat (length (p_rest s)) <= max_count)%N ->
  exists w s' e, ev (NTimes 0 max_count i (NDefs round)) s (Match s' e) /\ goes s w s' /\ assignments space visible w.
Proof.
  induction n as [|n IH]; intros s i Hn Hi.
  - destruct (round_at s ltac:(lia)) as [(a & g & s' & (G & _) & _)|(x & s' & e & F)].
    + exfalso. destruct G as (G & _). rewrite G, !app_length in Hn. cbn in Hn. lia.
    + exists [], s. destruct (N.ltb_spec i max_count).
      * exists e. split; [eapply ev_times_stop; [assumption|lia|exact F]|]. split; [apply goes_nil|constructor].
      * exists []. split; [apply ev_times_end; assumption|]. split; [apply goes_nil|constructor].
  - destruct (round_at s ltac:(lia)) as [(a & g & s1 & (G & e1 & V1 & _) & Ha & Hg)|(x & s' & e & F)].
    + pose proof G as (G' & _). rewrite G', !app_length in Hn, Hi. cbn [length of_string] in Hn, Hi.
      change (length (of_string ";")) with 1 in Hn, Hi.
      destruct (IH s1 (i + 1)%N ltac:(lia) ltac:(lia)) as (w & s' & e & V & G2 & Hw). exists ((a ++ of_string ";" ++ g) ++ w), s', (e1 ++ e).
      split; [|split; [eapply goes_app; eauto|rewrite <- !app_assoc; constructor; assumption]].
      eapply ev_times_more; [lia|intros _; eapply goes_on_place; [exact G|intros K; apply app_eq_nil in K as (_ & K); discriminate]|exact V1|exact V].
    + exists [], s. destruct (N.ltb_spec i max_count).
      * exists e. split; [eapply ev_times_stop; [assumption|lia|exact F]|]. split; [apply goes_nil|constructor].
      * exists []. split; [apply ev_times_end; assumption|]. split; [apply goes_nil|constructor].
Qed.
Lemma end_refused : forall s r, p_rest s = of_string "END." ++ r -> (N.of_nat (length (p_rest s)) <= max_count)%N -> refuses (NDefs round) s.
Proof.
  intros s r E Hl. unfold round. apply refuses_one, refuses_seq; [reflexivity|]. apply refuses_just, (refuses_meta rs cfg l30 _ _ _ N_assignment). rewrite D_assignment. apply fails_one.
  assert (Hx : an_identifier (of_string "END")) by (exists 69%N, (of_string "ND"); split; [reflexivity|]; split; [unfold upper; lia|]; change (of_string "ND") with [78; 68]%N; apply Forall_cons; [left; unfold upper; lia|apply Forall_cons; [left; unfold upper; lia|apply Forall_nil]]).
  destruct (identifier_takes l17 s (of_string "END") (46%N :: r) E Hx) as (s1 & T1 & R1); [cbn; unfold upper, numeric; lia|unfold max_count; cbn; lia|].
  eapply fails_seq; [reflexivity|apply takes_just; exact T1|]. apply refuses_fails, refuses_seq; [reflexivity|]. apply refuses_just, refuses_terminal.
  intros r'. rewrite R1. discriminate.
Qed.
Lemma body_first : forall w r, assignments space visible w -> starts upper (w ++ of_string "END." ++ r).
Proof.
  intros w r [|a g t (x & v & -> & (c & y & -> & Hc & _) & _) _ _]; [cbn; unfold upper; lia|]. exact Hc.
Qed.
Lemma upper_no_space : forall t, starts upper t -> ~ starts space t.
Proof. intros [|c t] H; [auto|]. cbn in *. rewrite (Hsp c (or_introl H)). discriminate. Qed.
Lemma body_takes : forall w, assignments space visible w -> forall s i r, p_rest s = w ++ of_string "END." ++ r -> (i + N.of_nat (length (p_rest s)) <= max_count)%N ->
  exists s', takes (NTimes 0 max_count i (NDefs round)) s w s' /\ p_rest s' = of_string "END." ++ r.
Proof.
  intros w H. induction H as [|a g w Ha Hg Hw IH]; intros s i r E Hl.
  - exists s. split; [|exact E]. apply takes_stop. eapply end_refused; [exact E|lia].
  - rewrite <- !app_assoc in E.
    destruct (assignment_takes l30 s a _ E Ha) as (s1 & T1 & R1); [cbn; unfold upper, numeric; lia|lia|].
    destruct (takes_terminal rs cfg l31 (of_string ";") s1 _ R1) as (s2 & T2 & R2).
    destruct (gap_takes l32 s2 g _ R2 Hg) as (s3 & T3 & R3); [apply upper_no_space, body_first; exact Hw|].
    destruct (IH s3 (i + 1)%N r R3) as (s4 & T4 & R4).
    { rewrite E, app_length, (app_length (of_string ";")), app_length in Hl. rewrite R3. change (length (of_string ";")) with 1 in Hl. lia. }
    exists s4. split; [|exact R4]. rewrite !app_assoc, <- app_assoc, <- app_assoc, (app_assoc (of_string ";")), (app_assoc a).
    eapply takes_round; [|intros K; apply app_eq_nil in K as (_ & K); discriminate| |exact T4].
    + rewrite E, app_length, (app_length (of_string ";")) in Hl. change (length (of_string ";")) with 1 in Hl. lia.
    + unfold round. apply takes_one. eapply takes_seq; [reflexivity|apply takes_just; exact T1|]. eapply takes_seq; [reflexivity|apply takes_just; exact T2|].
      apply takes_last; [reflexivity|exact T3].
Qed.

(** Programs. *)
Lemma then_ : forall t ts s s' e o, ev (NTerm t) s (Match s' e) -> ev (NSeq ts) s' o -> bare_group t = None -> ev (NSeq (t :: ts)) s (before e o).
Proof. intros t ts s s' e o H1 H2 Hb. eapply ev_seq; eassumption. Qed.
Arguments then_ {t ts s s' e o} _ _ _.
Lemma program_takes : forall s, a_program space visible (p_rest s) -> (N.of_nat (length (p_rest s)) <= max_count)%N ->
  exists s', takes (NDefs (r_defs r_program)) s (p_rest s) s' /\ p_rest s' = [].
Proof.
  intros s (g1 & x & g2 & g3 & w & E & Hg1 & Hx & Hg2 & Hg3 & Hw) Hl.
  destruct (takes_terminal rs cfg l23 (of_string "PROGRAM") s _ E) as (s1 & T1 & R1). pose proof (shorter _ _ _ (proj1 T1) Hl) as H1.
  assert (Hx' : forall t, starts upper (x ++ t)) by (destruct Hx as (c & y & -> & Hc & _); intros t; exact Hc).
  destruct (gap_takes l24 s1 g1 _ R1 Hg1) as (s2 & T2 & R2); [apply upper_no_space, Hx'|]. pose proof (shorter _ _ _ (proj1 T2) H1) as H2.
  destruct (identifier_takes l25 s2 x _ R2 Hx) as (s3 & T3 & R3).
  { destruct Hg2 as (Hne & Hs). destruct g2 as [|c g2]; [congruence|]. apply Forall_inv in Hs. cbn. intros K. rewrite (Hsp c K) in Hs. discriminate. }
  { rewrite R2, app_length in H2. lia. }
  pose proof (shorter _ _ _ (proj1 T3) H2) as H3.
  destruct (gap_takes l26 s3 g2 _ R3 Hg2) as (s4 & T4 & R4); [apply upper_no_space; cbn; unfold upper; lia|]. pose proof (shorter _ _ _ (proj1 T4) H3) as H4.
  destruct (takes_terminal rs cfg l27 (of_string "BEGIN") s4 _ R4) as (s5 & T5 & R5). pose proof (shorter _ _ _ (proj1 T5) H4) as H5.
  destruct (gap_takes l28 s5 g3 _ R5 Hg3) as (s6 & T6 & R6); [rewrite <- (app_nil_r (of_string "END.")); apply upper_no_space, body_first; exact Hw|]. pose proof (shorter _ _ _ (proj1 T6) H5) as H6.
  rewrite <- (app_nil_r (of_string "END.")) in R6. destruct (body_takes w Hw s6 0%N [] R6 ltac:(lia)) as (s7 & (G7 & e7 & V7 & T7) & R7).
  destruct (takes_terminal rs cfg l33 (of_string "END.") s7 [] R7) as (s8 & T8 & R8). exists s8. split; [|exact R8].
  rewrite D_program, E. apply takes_one.
  eapply takes_seq; [reflexivity|apply takes_just; exact T1|]. eapply takes_seq; [reflexivity|exact T2|]. eapply takes_seq; [reflexivity|apply takes_just; exact T3|].
  eapply takes_seq; [reflexivity|exact T4|]. eapply takes_seq; [reflexivity|apply takes_just; exact T5|]. eapply takes_seq; [reflexivity|exact T6|].
  eapply takes_seq; [reflexivity| |apply takes_last; [reflexivity|apply takes_just; exact T8]].
  apply takes_just. split; [exact G7|]. exists e7. split; [apply ev_repeated; exact V7|exact T7].
Qed.
Lemma program_at : forall s, (N.of_nat (length (p_rest s)) <= max_count)%N ->
  (exists s' e w, ev (NDefs (r_defs r_program)) s (Match s' e) /\ goes s w s' /\ a_program space visible w) \/ fails (NDefs (r_defs r_program)) s.
Proof.
  intros s Hl. rewrite D_program.
  destruct (terminal_at rs cfg l23 (of_string "PROGRAM") s) as [(s1 & T1 & _)|(F & _)].
  2: { right. apply fails_one, refuses_fails, refuses_seq; [reflexivity|]. apply refuses_just. exact F. }
  apply takes_just in T1. pose proof (shorter _ _ _ (proj1 T1) Hl) as H1.
  destruct (gap_at l24 s1) as [(g1 & q1 & s2 & _ & Hg1 & _ & T2 & _)|F].
  2: { right. apply fails_one. eapply fails_seq; [reflexivity|exact T1|]. apply refuses_fails, refuses_seq; [reflexivity|exact F]. }
  pose proof (shorter _ _ _ (proj1 T2) H1) as H2.
  destruct (identifier_at l25 s2 H2) as [(x & q2 & s3 & _ & Hx & _ & T3 & _)|(F & _)].
  2: { right. apply fails_one. eapply fails_seq; [reflexivity|exact T1|]. eapply fails_seq; [reflexivity|exact T2|]. apply refuses_fails, refuses_seq; [reflexivity|]. apply refuses_just. exact F. }
  apply takes_just in T3. pose proof (shorter _ _ _ (proj1 T3) H2) as H3.
  destruct (gap_at l26 s3) as [(g2 & q3 & s4 & _ & Hg2 & _ & T4 & _)|F].
  2: { right. apply fails_one. eapply fails_seq; [reflexivity|exact T1|]. eapply fails_seq; [reflexivity|exact T2|]. eapply fails_seq; [reflexivity|exact T3|].
       apply refuses_fails, refuses_seq; [reflexivity|exact F]. }
  pose proof (shorter _ _ _ (proj1 T4) H3) as H4.
  destruct (terminal_at rs cfg l27 (of_string "BEGIN") s4) as [(s5 & T5 & _)|(F & _)].
  2: { right. apply fails_one. eapply fails_seq; [reflexivity|exact T1|]. eapply fails_seq; [reflexivity|exact T2|]. eapply fails_seq; [reflexivity|exact T3|].
       eapply fails_seq; [reflexivity|exact T4|]. apply refuses_fails, refuses_seq; [reflexivity|]. apply refuses_just. exact F. }
  apply takes_just in T5. pose proof (shorter _ _ _ (proj1 T5) H4) as H5.
  destruct (gap_at l28 s5) as [(g3 & q4 & s6 & _ & Hg3 & _ & T6 & _)|F].
  2: { right. apply fails_one. eapply fails_seq; [reflexivity|exact T1|]. eapply fails_seq; [reflexivity|exact T2|]. eapply fails_seq; [reflexivity|exact T3|].
       eapply fails_seq; [reflexivity|exact T4|]. eapply fails_seq; [reflexivity|exact T5|]. apply refuses_fails, refuses_seq; [reflexivity|exact F]. }
  pose proof (shorter _ _ _ (proj1 T6) H5) as H6.
  destruct (body_at (length (p_rest s6)) s6 0%N ltac:(lia) ltac:(lia)) as (w & s7 & e7 & V7 & G7 & Hw).
  assert (V7' : ev (NTerm (just (PRepeated l29 round))) s6 (Match s7 e7)) by (apply ev_term_plain, ev_factor_one, ev_repeated; exact V7).
  destruct (terminal_at rs cfg l33 (of_string "END.") s7) as [(s8 & T8 & _)|(F & _)].
  - left. apply takes_just in T8. destruct (takes_last rs cfg (just (PTerminal l33 (of_string "END."))) _ _ _ eq_refl T8) as (G8 & e8 & V8 & _).
    destruct T1 as (G1 & e1 & V1 & _), T2 as (G2 & e2 & V2 & _), T3 as (G3 & e3 & V3 & _), T4 as (G4 & e4 & V4 & _), T5 as (G5 & e5 & V5 & _), T6 as (G6 & e6 & V6 & _).
    exists s8, (e1 ++ e2 ++ e3 ++ e4 ++ e5 ++ e6 ++ e7 ++ e8), (of_string "PROGRAM" ++ g1 ++ x ++ g2 ++ of_string "BEGIN" ++ g3 ++ w ++ of_string "END.").
    split; [|split; [repeat (eapply goes_app; [eassumption|]); exact G8|exists g1, x, g2, g3, w; auto 8]].
    apply ev_defs_one. unfold round in V7'.
    pose proof (then_ V7' V8 eq_refl) as K. pose proof (then_ V6 K eq_refl) as K1.
    pose proof (then_ V5 K1 eq_refl) as K2. pose proof (then_ V4 K2 eq_refl) as K3.
    pose proof (then_ V3 K3 eq_refl) as K4. pose proof (then_ V2 K4 eq_refl) as K5.
    exact (then_ V1 K5 eq_refl).
  - right. apply fails_one. eapply fails_seq; [reflexivity|exact T1|]. eapply fails_seq; [reflexivity|exact T2|]. eapply fails_seq; [reflexivity|exact T3|].
    eapply fails_seq; [reflexivity|exact T4|]. eapply fails_seq; [reflexivity|exact T5|]. eapply fails_seq; [reflexivity|exact T6|].
    apply refuses_just, (refuses_seq rs cfg (just (PTerminal l33 (of_string "END."))) [] _ eq_refl) in F. destruct F as (y & s9 & F). do 3 eexists. exact (then_ V7' F eq_refl).
Qed.
Lemma program_both : forall s, (N.of_nat (length (p_rest s)) <= max_count)%N ->
  (a_program space visible (p_rest s) -> exists s', takes (NDefs (r_defs r_program)) s (p_rest s) s' /\ p_rest s' = []) /\
  ((exists s' e w, ev (NDefs (r_defs r_program)) s (Match s' e) /\ goes s w s' /\ a_program space visible w) \/ fails (NDefs (r_defs r_program)) s).
Proof. intros s Hl. split; [intros H; exact (program_takes s H Hl)|exact (program_at s Hl)]. Qed.
(** What the events of a program tell. *)
Notation tells := (tells rs cfg).
Hypothesis I_letter : r_id r_letter = i_letter.
Hypothesis I_digit : r_id r_digit = i_digit.
Hypothesis I_space : r_id r_space = i_space.
Hypothesis I_visible : r_id r_visible = i_visible.
Hypothesis I_identifier : r_id r_identifier = i_identifier.
Hypothesis I_number : r_id r_number = i_number.
Hypothesis I_string : r_id r_string = i_string.
Hypothesis I_assignment : r_id r_assignment = i_assignment.
Lemma letter_tells : forall l, tells_one_char rs cfg upper letter_items (NPrim (PMeta l i_letter)).
Proof.
  intros l s c r E Hc. destruct (choice_tells rs cfg x1 x2 xs upper Letters s c r E Hc) as (s' & T & R). exists s'. split; [|exact R].
  apply (tells_meta rs cfg l _ _ _ _ _ _ N_letter I_letter). rewrite D_letter. exact T.
Qed.
Lemma digit_tells : forall l, tells_one_char rs cfg numeric digit_items (NPrim (PMeta l i_digit)).
Proof.
  intros l s c r E Hc. destruct (choice_tells rs cfg y1 y2 ys numeric Digits s c r E Hc) as (s' & T & R). exists s'. split; [|exact R].
  apply (tells_meta rs cfg l _ _ _ _ _ _ N_digit I_digit). rewrite D_digit. exact T.
Qed.
Lemma alnum_tells : forall l l', tells_one_char rs cfg alnum name_items (NDefs [[just (PMeta l i_letter)]; [just (PMeta l' i_digit)]]).
Proof.
  intros l l' s c r E Hc. unfold name_items. destruct Hc as [Hc|Hc].
  - replace (N.leb 65 c) with true by (symmetry; apply N.leb_le; unfold upper in Hc; lia). destruct (letter_tells l s c r E Hc) as (s' & T & R). exists s'. split; [|exact R].
    refine (tells_alts rs cfg [] _ [_] s _ _ s' ltac:(discriminate) (Forall_nil _) _). apply tells_last; [reflexivity|]. apply tells_just. exact T.
  - replace (N.leb 65 c) with false by (symmetry; apply N.leb_gt; unfold numeric in Hc; lia). destruct (digit_tells l' s c r E Hc) as (s' & T & R). exists s'. split; [|exact R].
    refine (tells_alts rs cfg [_] _ [] s _ _ s' ltac:(discriminate) _ _); [|apply tells_last; [reflexivity|]; apply tells_just; exact T].
    constructor; [|constructor]. apply refuses_fails, refuses_seq; [reflexivity|]. apply refuses_just, (proj2 (letter_reads l)). rewrite E. cbn. unfold upper, numeric in *. lia.
Qed.
Lemma digits_tell : forall l, tells_one_char rs cfg numeric digit_items (NDefs [[just (PMeta l i_digit)]]).
Proof.
  intros l s c r E Hc. destruct (digit_tells l s c r E Hc) as (s' & T & R). exists s'. split; [|exact R]. apply tells_one, tells_last; [reflexivity|]. apply tells_just. exact T.
Qed.
Lemma gap_tells : forall l s w r, p_rest s = w ++ r -> a_gap space w -> ~ starts space r ->
  exists s', tells (NTerm (just (PMeta l i_space))) s w (gap_items w) s' /\ p_rest s' = r.
Proof.
  intros l s w r E (Hne & Hw) Hr. destruct (place _ _ _ E) as (s' & G & R). exists s'. split; [|exact R].
  apply tells_just, (tells_meta rs cfg l _ _ _ _ _ _ N_space I_space). rewrite D_space. apply tells_one, tells_last; [reflexivity|]. apply tells_just.
  split; [exact G|]. eexists. split; [apply ev_special; rewrite Cspace; apply (sn_chars _ _ _ _ _ w s')|reflexivity].
  - split; [exact G|]. split; [exact Hw|]. split; [discriminate|]. rewrite R. destruct r as [|c r']; [left; reflexivity|]. right. right. exists c, r'.
    split; [reflexivity|]. cbn in Hr. destruct (sp c); [congruence|reflexivity].
  - intros (m & [= <-] & Hm). destruct w; [congruence|]. cbn [length] in Hm. lia.
Qed.
Lemma identifier_tells : forall l s w r, p_rest s = w ++ r -> an_identifier w -> ~ starts alnum r -> (N.of_nat (length w) <= max_count)%N ->
  exists s', tells (NPrim (PMeta l i_identifier)) s w (identifier_items w) s' /\ p_rest s' = r.
Proof.
  intros l s w r E (c & v & -> & Hc & Hv) Hr Hl. cbn [app length] in *. destruct (letter_tells l3 s c (v ++ r) E Hc) as (s1 & T1 & R1).
  destruct (tells_repeated rs cfg alnum name_items l4 _ (alnum_reads l5 l6) (alnum_tells l5 l6) s1 v r R1 Hv Hr ltac:(lia)) as (s2 & T2 & R2). exists s2. split; [|exact R2].
  apply (tells_meta rs cfg l _ _ _ _ _ _ N_identifier I_identifier). rewrite D_identifier. apply tells_one. change (c :: v) with ([c] ++ v) at 1. cbn [flat_map].
  replace (name_items c) with (letter_items c) by (unfold name_items; replace (N.leb 65 c) with true by (symmetry; apply N.leb_le; unfold upper in Hc; lia); reflexivity).
  eapply tells_seq; [reflexivity|apply tells_just; exact T1|]. apply tells_last; [reflexivity|exact T2].
Qed.
Lemma minus_tells : forall s sg v r, p_rest s = sg ++ v ++ r -> sg = [] \/ sg = of_string "-" -> v <> [] -> Forall numeric v ->
  exists s', tells (NTerm (just (POptional l7 [[just (PTerminal l8 (of_string "-"))]]))) s sg (match sg with [] => [] | _ => [Word sg] end) s' /\ p_rest s' = v ++ r.
Proof.
  intros s sg v r E [->| ->] Hne Hv.
  - exists s. split; [|exact E]. apply tells_just. assert (T : refuses (NDefs [[just (PTerminal l8 (of_string "-"))]]) s).
    { apply refuses_one, refuses_seq; [reflexivity|]. apply refuses_just, refuses_terminal. intros r' E'. cbn [app] in E. apply (numeric_minus v Hne Hv r). rewrite <- E, E'. reflexivity. }
    destruct T as (x & s' & V). split; [apply goes_nil|]. exists []. split; [|reflexivity]. apply ev_optional. eapply ev_times_stop; [lia|lia|exact V].
  - destruct (tells_terminal rs cfg l8 (of_string "-") s _ E) as (s' & T & R). exists s'. split; [|exact R]. apply tells_just.
    assert (T' : tells (NDefs [[just (PTerminal l8 (of_string "-"))]]) s (of_string "-") [Word (of_string "-")] s') by (apply tells_one, tells_last; [reflexivity|]; apply tells_just; exact T).
    destruct T' as (G & e & V & Tr). split; [exact G|]. exists (e ++ []). split; [|rewrite app_nil_r; exact Tr]. apply ev_optional.
    eapply ev_times_more; [lia|discriminate|exact V|]. apply ev_times_end. lia.
Qed.
Lemma number_tells : forall l s sg v r, p_rest s = (sg ++ v) ++ r -> sg = [] \/ sg = of_string "-" -> v <> [] -> Forall numeric v -> ~ starts numeric r ->
  (N.of_nat (length (sg ++ v)) <= max_count)%N -> exists s', tells (NPrim (PMeta l i_number)) s (sg ++ v) (number_items sg v) s' /\ p_rest s' = r.
Proof.
  intros l s sg v r E Hsg Hne Hv Hr Hl. rewrite <- app_assoc in E. rewrite app_length in Hl.
  destruct (minus_tells s sg v r E Hsg Hne Hv) as (s1 & T1 & R1).
  destruct v as [|c v]; [congruence|]. inversion Hv as [|? ? Hc Hv']; subst. cbn [app length] in *.
  destruct (digit_tells l9 s1 c (v ++ r) R1 Hc) as (s2 & T2 & R2).
  destruct (tells_repeated rs cfg numeric digit_items l10 _ (digits_reads l11) (digits_tell l11) s2 v r R2 Hv' Hr ltac:(lia)) as (s3 & T3 & R3). exists s3. split; [|exact R3].
  apply (tells_meta rs cfg l _ _ _ _ _ _ N_number I_number). rewrite D_number. apply tells_one. eapply tells_seq; [reflexivity|exact T1|].
  change (c :: v) with ([c] ++ v) at 1. cbn [flat_map]. eapply tells_seq; [reflexivity|apply tells_just; exact T2|]. apply tells_last; [reflexivity|exact T3].
Qed.
Lemma inside_tells : tells_one_char rs cfg inside visible_items (NDefs [[Term (Factor 1 (PMeta l14 i_visible)) (Some (Factor 1 (PTerminal l15 [34%N])))]]).
Proof.
  intros s c r E (Hc & Hq). destruct (place s [c] r E) as (s' & G & R). exists s'. split; [|exact R].
  assert (T : tells (NPrim (PMeta l14 i_visible)) s [c] (visible_items c) s').
  { apply (tells_meta rs cfg l14 _ _ _ _ _ _ N_visible I_visible). rewrite D_visible. apply tells_one, tells_last; [reflexivity|]. apply tells_just.
    split; [exact G|]. eexists. split; [apply ev_special; rewrite Cvisible; apply (sn_chars _ _ _ _ _ [c] s')|reflexivity].
    - split; [exact G|]. split; [constructor; [exact Hc|constructor]|]. split; [intros m [= <-]; cbn; lia|]. right. left. reflexivity.
    - intros (m & [= <-] & Hm). cbn [length] in Hm. lia. }
  destruct T as (_ & e & V & T). apply tells_one, tells_last; [reflexivity|]. split; [exact G|]. exists e. split; [|exact T].
  assert (X : refuses (NPrim (PTerminal l15 [34%N])) (Pst [c] (p_at s))) by (apply refuses_terminal; cbn; congruence).
  destruct X as (x & s2 & X). eapply ev_term_kept; [apply ev_factor_one; exact V|exact G|apply ev_factor_one; exact X|right; eauto].
Qed.
Lemma string_tells : forall l s v r, p_rest s = (34%N :: v ++ [34%N]) ++ r -> Forall inside v -> (N.of_nat (length (34%N :: v ++ [34%N])) <= max_count)%N ->
  exists s', tells (NPrim (PMeta l i_string)) s (34%N :: v ++ [34%N]) (string_items v) s' /\ p_rest s' = r.
Proof.
  intros l s v r E Hv Hl. cbn [app length] in *. rewrite <- app_assoc in E. rewrite app_length in Hl.
  destruct (tells_terminal rs cfg l12 [34%N] s (v ++ [34%N] ++ r) E) as (s1 & T1 & R1).
  destruct (tells_repeated rs cfg inside visible_items l13 _ inside_reads inside_tells s1 v _ R1 Hv) as (s2 & T2 & R2); [cbn; intuition congruence|lia|].
  destruct (tells_terminal rs cfg l16 [34%N] s2 r R2) as (s3 & T3 & R3). exists s3. split; [|exact R3].
  apply (tells_meta rs cfg l _ _ _ _ _ _ N_string I_string). rewrite D_string. apply tells_one. change (34%N :: v ++ [34%N]) with ([34%N] ++ v ++ [34%N]).
  eapply tells_seq; [reflexivity|apply tells_just; exact T1|]. eapply tells_seq; [reflexivity|exact T2|]. apply tells_last; [reflexivity|]. apply tells_just. exact T3.
Qed.
Lemma tells_alt : forall l id s w it s', tells (NPrim (PMeta l id)) s w it s' -> tells (NSeq [just (PMeta l id)]) s w it s'.
Proof. intros l id s w it s' H. apply tells_last; [reflexivity|]. apply tells_just. exact H. Qed.
Lemma value_tells : forall s v it r, p_rest s = v ++ r -> value_tree visible v it -> ~ starts alnum r ->
  (N.of_nat (length (p_rest s)) <= max_count)%N -> exists s', tells (NDefs values) s v it s' /\ p_rest s' = r.
Proof.
  intros s v it r E Hv Hr Hl. assert (Hlv : (N.of_nat (length v) <= max_count)%N) by (rewrite E, app_length in Hl; lia). unfold values. destruct Hv as [sg v Hsg Hne Hv|v Hv|v Hv].
  - destruct (number_tells l20 s sg v r E Hsg Hne Hv) as (s' & T & R); [destruct r; [auto|intros K; apply Hr; right; exact K]|exact Hlv|]. exists s'. split; [|exact R].
    refine (tells_alts rs cfg [] _ [_; _] s _ _ s' ltac:(discriminate) (Forall_nil _) _). apply tells_alt. exact T.
  - assert (F1 : fails (NSeq [just (PMeta l20 i_number)]) s).
    { apply fails_alt, number_refuses; [exact Hl|]. rewrite E. destruct Hv as (c & t & -> & Hc & _). cbn. unfold upper, numeric in *. lia. }
    destruct (identifier_tells l21 s v r E Hv Hr Hlv) as (s' & T & R). exists s'. split; [|exact R].
    refine (tells_alts rs cfg [_] _ [_] s v _ s' ltac:(discriminate) _ _); [constructor; [exact F1|constructor]|]. apply tells_alt. exact T.
  - assert (F1 : fails (NSeq [just (PMeta l20 i_number)]) s).
    { apply fails_alt, number_refuses; [exact Hl|]. rewrite E. cbn. unfold numeric in *. lia. }
    assert (F2 : fails (NSeq [just (PMeta l21 i_identifier)]) s).
    { apply fails_alt, identifier_refuses. rewrite E. cbn. unfold upper in *. lia. }
    destruct (string_tells l22 s v r E Hv Hlv) as (s' & T & R). exists s'. split; [|exact R].
    refine (tells_alts rs cfg [_; _] _ [] s _ _ s' ltac:(discriminate) _ _); [constructor; [exact F1|constructor; [exact F2|constructor]]|]. apply tells_alt. exact T.
Qed.
Lemma assignment_tells : forall l s x v iv r, p_rest s = (x ++ of_string ":=" ++ v) ++ r -> an_identifier x -> value_tree visible v iv -> ~ starts alnum r ->
  (N.of_nat (length (p_rest s)) <= max_count)%N ->
  exists s', tells (NPrim (PMeta l i_assignment)) s (x ++ of_string ":=" ++ v) (within i_assignment (identifier_items x ++ [Word (of_string ":=")] ++ iv)) s' /\ p_rest s' = r.
Proof.
  intros l s x v iv r E Hx Hv Hr Hl. rewrite <- !app_assoc in E.
  destruct (identifier_tells l17 s x _ E Hx) as (s1 & T1 & R1); [cbn; unfold upper, numeric; lia|rewrite E, app_length in Hl; lia|].
  destruct (tells_terminal rs cfg l18 (of_string ":=") s1 _ R1) as (s2 & T2 & R2).
  destruct (value_tells s2 v iv r R2 Hv Hr) as (s3 & T3 & R3); [exact (shorter _ _ _ (proj1 T2) (shorter _ _ _ (proj1 T1) Hl))|]. exists s3. split; [|exact R3].
  apply (tells_meta rs cfg l _ _ _ _ _ _ N_assignment I_assignment). rewrite D_assignment. apply tells_one.
  eapply tells_seq; [reflexivity|apply tells_just; exact T1|]. eapply tells_seq; [reflexivity|apply tells_just; exact T2|]. apply tells_group. exact T3.
Qed.
Lemma tree_value : forall v iv, value_tree visible v iv -> a_number v \/ an_identifier v \/ a_string visible v.
Proof. intros v iv [sg r H1 H2 H3|x H|u H]; [left; exists sg, r; auto|right; left; exact H|right; right; exists u; auto]. Qed.
Lemma tree_body : forall w it, body_tree space visible w it -> assignments space visible w.
Proof.
  intros w it H. induction H as [|x v iv g r ir Hx Hv Hg H IH]; [constructor|]. apply as_more; [|exact Hg|exact IH].
  exists x, v. split; [reflexivity|]. split; [exact Hx|]. eapply tree_value. exact Hv.
Qed.
Lemma body_tells : forall w it, body_tree space visible w it -> forall s i r, p_rest s = w ++ of_string "END." ++ r -> (i + N.of_nat (length (p_rest s)) <= max_count)%N ->
  exists s', tells (NTimes 0 max_count i (NDefs round)) s w it s' /\ p_rest s' = of_string "END." ++ r.
Proof.
  intros w it H. induction H as [|x v iv g w iw Hx Hv Hg Hw IH]; intros s i r E Hl.
  - exists s. split; [|exact E]. apply tells_stop. eapply end_refused; [exact E|lia].
  - set (a := x ++ of_string ":=" ++ v) in *. rewrite <- !app_assoc in E.
    destruct (assignment_tells l30 s x v iv _ E Hx Hv) as (s1 & T1 & R1); [cbn; unfold upper, numeric; lia|lia|]. fold a in T1.
    destruct (tells_terminal rs cfg l31 (of_string ";") s1 _ R1) as (s2 & T2 & R2).
    destruct (gap_tells l32 s2 g _ R2 Hg) as (s3 & T3 & R3); [apply upper_no_space, body_first; eapply tree_body; exact Hw|].
    destruct (IH s3 (i + 1)%N r R3) as (s4 & T4 & R4).
    { rewrite E, app_length, (app_length (of_string ";")), app_length in Hl. rewrite R3. change (length (of_string ";")) with 1 in Hl. lia. }
    exists s4. split; [|exact R4].
    replace (a ++ of_string ";" ++ g ++ w) with ((a ++ of_string ";" ++ g) ++ w) by (rewrite <- !app_assoc; reflexivity).
    match goal with |- tells _ _ _ (?p ++ ?q ++ ?t ++ iw) _ => replace (p ++ q ++ t ++ iw) with ((p ++ q ++ t) ++ iw) by (rewrite <- !app_assoc; reflexivity) end.
    eapply tells_round; [|intros K; apply app_eq_nil in K as (_ & K); discriminate| |exact T4].
    + rewrite E, app_length, (app_length (of_string ";")) in Hl. change (length (of_string ";")) with 1 in Hl. lia.
    + unfold round. apply tells_one. eapply tells_seq; [reflexivity|apply tells_just; exact T1|]. eapply tells_seq; [reflexivity|apply tells_just; exact T2|].
      apply tells_last; [reflexivity|exact T3].
Qed.
Lemma program_tells : forall s it, program_tree space visible (p_rest s) it -> (N.of_nat (length (p_rest s)) <= max_count)%N ->
  exists s' inner, tells (NDefs (r_defs r_program)) s (p_rest s) inner s' /\ p_rest s' = [] /\ it = within i_program inner.
Proof.
  intros s it (g1 & x & g2 & g3 & w & iw & E & Hg1 & Hx & Hg2 & Hg3 & Hw & ->) Hl. pose proof (tree_body _ _ Hw) as Hw'.
  destruct (tells_terminal rs cfg l23 (of_string "PROGRAM") s _ E) as (s1 & T1 & R1). pose proof (shorter _ _ _ (proj1 T1) Hl) as H1.
  assert (Hx' : forall t, starts upper (x ++ t)) by (destruct Hx as (c & y & -> & Hc & _); intros t; exact Hc).
  destruct (gap_tells l24 s1 g1 _ R1 Hg1) as (s2 & T2 & R2); [apply upper_no_space, Hx'|]. pose proof (shorter _ _ _ (proj1 T2) H1) as H2.
  destruct (identifier_tells l25 s2 x _ R2 Hx) as (s3 & T3 & R3).
  { destruct Hg2 as (Hne & Hs). destruct g2 as [|c g2]; [congruence|]. apply Forall_inv in Hs. cbn. intros K. rewrite (Hsp c K) in Hs. discriminate. }
  { rewrite R2, app_length in H2. lia. }
  pose proof (shorter _ _ _ (proj1 T3) H2) as H3.
  destruct (gap_tells l26 s3 g2 _ R3 Hg2) as (s4 & T4 & R4); [apply upper_no_space; cbn; unfold upper; lia|]. pose proof (shorter _ _ _ (proj1 T4) H3) as H4.
  destruct (tells_terminal rs cfg l27 (of_string "BEGIN") s4 _ R4) as (s5 & T5 & R5). pose proof (shorter _ _ _ (proj1 T5) H4) as H5.
  destruct (gap_tells l28 s5 g3 _ R5 Hg3) as (s6 & T6 & R6); [rewrite <- (app_nil_r (of_string "END.")); apply upper_no_space, body_first; exact Hw'|]. pose proof (shorter _ _ _ (proj1 T6) H5) as H6.
  rewrite <- (app_nil_r (of_string "END.")) in R6. destruct (body_tells w iw Hw s6 0%N [] R6 ltac:(lia)) as (s7 & (G7 & e7 & V7 & T7) & R7).
  destruct (tells_terminal rs cfg l33 (of_string "END.") s7 [] R7) as (s8 & T8 & R8). exists s8. eexists. split; [|split; [exact R8|reflexivity]].
  rewrite D_program, E. apply tells_one.
  eapply tells_seq; [reflexivity|apply tells_just; exact T1|]. eapply tells_seq; [reflexivity|exact T2|]. eapply tells_seq; [reflexivity|apply tells_just; exact T3|].
  eapply tells_seq; [reflexivity|exact T4|]. eapply tells_seq; [reflexivity|apply tells_just; exact T5|]. eapply tells_seq; [reflexivity|exact T6|].
  eapply tells_seq; [reflexivity| |apply tells_last; [reflexivity|apply tells_just; exact T8]].
  apply tells_just. split; [exact G7|]. exists e7. split; [apply ev_repeated; exact V7|exact T7].
Qed.
Lemma program_all : forall s, (N.of_nat (length (p_rest s)) <= max_count)%N ->
  (a_program space visible (p_rest s) -> exists s', takes (NDefs (r_defs r_program)) s (p_rest s) s' /\ p_rest s' = []) /\
  ((exists s' e w, ev (NDefs (r_defs r_program)) s (Match s' e) /\ goes s w s' /\ a_program space visible w) \/ fails (NDefs (r_defs r_program)) s) /\
  (forall it, program_tree space visible (p_rest s) it ->
    exists s' inner, tells (NDefs (r_defs r_program)) s (p_rest s) inner s' /\ p_rest s' = [] /\ it = within i_program inner).
Proof. intros s Hl. split; [exact (proj1 (program_both s Hl))|]. split; [exact (proj2 (program_both s Hl))|]. intros it H. exact (program_tells s it H Hl). Qed.
End Example.
