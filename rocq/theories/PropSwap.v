(** Property C104: scanners that answer alike may be exchanged. *)
From Coq Require Import String List NArith Arith Bool Lia.
From Verif Require Import Base Ident Tokenizer Ast Lex Syntax Io Graph Machine SpecText SpecSyntax SpecIo TextFacts SyntaxFacts IoFacts SpecParse SpecMachine SpecError SpecMark SpecSwap Pure ParseFacts MachineFacts SwapFacts PropSyntax PropParse.
Import ListNotations.
Open Scope nat_scope.

(** C104.  Two configurations whose scanners answer alike at the special sequences of the rules:
    every parse that returns gives the same answer with the other, events and errors and all ... *)
Theorem C104_exchange : forall rs c1 c2 g1 g2 id m1 m2 debug fuel rd, configs_alike rs c1 c2 -> symbols_alike rs c1 c2 ->
  parser_for rs c1 g1 id m1 -> parser_for rs c2 g2 id m2 -> reader rd -> ending_of rd = None -> fst (parser_parse debug g1 fuel m1 rd) <> OutOfFuel ->
  exists f0, forall fuel2, f0 <= fuel2 -> same_answer (fst (parser_parse debug g1 fuel m1 rd)) (fst (parser_parse debug g2 fuel2 m2 rd)).
Proof. exact swap_same. Qed.
Print Assumptions C104_exchange.
(** ... and when they have other symbols, only the words of errors can differ. *)
Theorem C104_symbols : forall rs c1 c2 g1 g2 id m1 m2 debug fuel rd, configs_alike rs c1 c2 ->
  parser_for rs c1 g1 id m1 -> parser_for rs c2 g2 id m2 -> reader rd -> ending_of rd = None -> fst (parser_parse debug g1 fuel m1 rd) <> OutOfFuel ->
  exists f0, forall fuel2, f0 <= fuel2 -> same_but_words (fst (parser_parse debug g1 fuel m1 rd)) (fst (parser_parse debug g2 fuel2 m2 rd)).
Proof. exact swap_words. Qed.
Print Assumptions C104_symbols.
(** A regular expression for runs of at most 256 characters of a class answers like the
    [CharsScanner] of the class ... *)
Theorem C104_regex : forall p mn mx re find def, mx <= 256 -> finds_run p mn mx find ->
  answer_alike def (ScRegex re find) (ScChars p (Some (N.of_nat mn)) (Some (N.of_nat mx))).
Proof. exact regex_chars. Qed.
Print Assumptions C104_regex.
(** ... one for longer runs does not: at 257 characters of the class it fails. *)
Theorem C104_regex_limit : forall p mn mx re find def c, 256 < mx -> mn <= 257 -> finds_run p mn mx find -> p c = true ->
  ~ answer_alike def (ScRegex re find) (ScChars p (Some (N.of_nat mn)) (Some (N.of_nat mx))).
Proof.
  intros p mn mx re find def c Hmx Hmn Hf Hc H. set (t := repeat c 257).
  assert (Hrun : run_of p mx t = 257).
  { assert (K : forall k m, k <= m -> run_of p m (repeat c k) = k) by (induction k as [|k IH]; intros [|m] Hk; cbn [repeat run_of]; try reflexivity; [lia|rewrite Hc, IH by lia; reflexivity]). apply K. lia. }
  assert (Hlt : length t = 257) by apply repeat_length. clearbody t. set (s := Pst t def).
  assert (Hw : window s = t) by (unfold window, s; cbn [p_rest]; apply firstn_all2; lia).
  assert (K : scanned (ScRegex re find) def s (SFail (Error_ (p_at s) MRegexTooLong))).
  { apply (sn_regex_long re find def s 257).
    - rewrite Hw, (Hf t), Hrun. replace (Nat.leb mn 257) with true by (symmetry; apply Nat.leb_le; exact Hmn). reflexivity.
    - rewrite Hw, firstn_all2 by lia. lia. }
  apply H in K. inversion K.
Qed.
Print Assumptions C104_regex_limit.
(** A scanner of one's own that reads a character and looks at it answers like
    [CharsScanner::with_one_of]. *)
Theorem C104_own : forall p sym def, answer_alike def (ScUser sym (one_char p)) (ScChars p (Some 1%N) (Some 1%N)).
Proof. exact one_chars. Qed.
Print Assumptions C104_own.

(** Scanners answer alike exactly if they do on every reader on which they can be tried (with a
    mark outstanding, as during a parse). *)
Lemma scan_answers : forall debug fuel sc def rd, reader rd -> ending_of rd = None -> ub_stack (mr_ub rd) <> [] -> length (unread rd) < fuel ->
  exists r, scanned sc def (stand rd) r /\ SpecMark.answers (special_scan debug fuel sc def rd) r.
Proof.
  intros debug fuel sc def rd Hr He Hm Hf. destruct (scan_reader debug fuel sc def rd Hr He (or_intror Hm)) as (rd' & K1 & K2).
  destruct (scan_none fuel sc def (stand rd)) as [(_ & H)|(r & A & B)]; [exfalso; change (p_rest (stand rd)) with (unread rd) in H; lia|].
  exists r. split; [exact A|]. rewrite K1.
  destruct (pspecial_scan None fuel sc def (stand rd)) as ([re|e|p|] & s1); cbn [scan_is fst snd] in *; try contradiction; subst r; [|reflexivity].
  destruct re; cbn; auto.
Qed.
Lemma answers_same : forall x y r, SpecMark.answers x r -> SpecMark.answers y r -> same_scan x y.
Proof.
  intros x y [s' e| |id s'|e] Hx Hy; cbn in Hx, Hy; unfold same_scan.
  - destruct Hx as (-> & ->), Hy as (-> & ->). auto.
  - rewrite Hx, Hy. auto.
  - destruct Hx as (-> & ->), Hy as (-> & ->). auto.
  - rewrite Hx, Hy. auto.
Qed.
Lemma same_answers : forall x y r, SpecMark.answers x r -> same_scan x y -> SpecMark.answers y r.
Proof.
  intros x y [s' e| |id s'|e] Hx (E & Hs); cbn in Hx |- *.
  - destruct Hx as (Hx & <-). rewrite Hx in Hs. rewrite <- E. auto.
  - rewrite <- E. exact Hx.
  - destruct Hx as (Hx & <-). rewrite Hx in Hs. rewrite <- E. auto.
  - rewrite <- E. exact Hx.
Qed.
Lemma answers_fun : forall x r r', SpecMark.answers x r -> SpecMark.answers x r' -> r = r'.
Proof.
  intros x [s e| |i s|e] [s2 e2| |i2 s2|e2] H1 H2; cbn in H1, H2; repeat match goal with H : _ /\ _ |- _ => destruct H end; congruence.
Qed.
Lemma marked_reader : forall s, exists rd, reader rd /\ ending_of rd = None /\ ub_stack (mr_ub rd) <> [] /\ stand rd = s.
Proof.
  intros [t l]. exists (snd (perform false [OMark] (mr_of_text l t))).
  split; [eapply (rd_op false OMark (mr_of_text l t)); [apply rd_new|reflexivity]|]. split; [reflexivity|]. split; [discriminate|].
  unfold stand, unread. cbn. rewrite ?app_nil_r. reflexivity.
Qed.
Lemma by_trying_pf : forall def a b, answer_alike def a b <->
  forall debug fuel rd, reader rd -> ending_of rd = None -> ub_stack (mr_ub rd) <> [] -> length (unread rd) < fuel ->
    same_scan (special_scan debug fuel a def rd) (special_scan debug fuel b def rd).
Proof.
  intros def a b. split.
  - intros H debug fuel rd Hr He Hm Hf. destruct (scan_answers debug fuel a def rd Hr He Hm Hf) as (r & A & B).
    destruct (scan_answers debug fuel b def rd Hr He Hm Hf) as (r2 & A2 & B2). apply H in A.
    pose proof (scanned_fun _ _ _ _ _ A A2) as <-. eapply answers_same; eassumption.
  - intros H s r. destruct (marked_reader s) as (rd & Hr & He & Hm & <-).
    destruct (scan_answers false (S (length (unread rd))) a def rd Hr He Hm ltac:(lia)) as (ra & A & B).
    destruct (scan_answers false (S (length (unread rd))) b def rd Hr He Hm ltac:(lia)) as (rb & A2 & B2).
    specialize (H false (S (length (unread rd))) rd Hr He Hm ltac:(lia)).
    pose proof (answers_fun _ _ _ (same_answers _ _ _ B H) B2) as <-.
    split; intros K.
    + pose proof (scanned_fun _ _ _ _ _ A K) as <-. exact A2.
    + pose proof (scanned_fun _ _ _ _ _ A2 K) as <-. exact A.
Qed.
Theorem C104_by_trying : forall def a b, answer_alike def a b <->
  forall debug fuel rd, reader rd -> ending_of rd = None -> ub_stack (mr_ub rd) <> [] -> length (unread rd) < fuel ->
    same_scan (special_scan debug fuel a def rd) (special_scan debug fuel b def rd).
Proof. exact by_trying_pf. Qed.
Print Assumptions C104_by_trying.

(** Lists of numbers of up to three digits, with the scanners of the library, with a regular
    expression, and with one's own. *)
Definition a_digit (c : N) : bool := (N.leb 48 c && N.leb c 57)%bool.
Definition find_digits (t : str) : option (nat * nat) := if Nat.leb 1 (run_of a_digit 3 t) then Some (0, run_of a_digit 3 t) else None.
Definition with_chars : config := fun _ c => if str_eqb c (txt "num") then ScChars a_digit (Some 1%N) (Some 3%N) else ScChars a_digit (Some 1%N) (Some 1%N).
Definition with_others : config := fun _ c => if str_eqb c (txt "num") then ScRegex (txt "^[0-9]{1,3}") find_digits else ScUser (txt "a digit") (one_char a_digit).
Definition numbers : str := txt "S = ?num?, { ',', ?num? | ';', ?one? };".
Example C104_case_alike : forall rs, configs_alike rs with_others with_chars.
Proof.
  intros rs l c _. unfold with_others, with_chars. destruct (str_eqb c (txt "num")).
  - apply (C104_regex a_digit 1 3); [apply Nat.leb_le; reflexivity|]. intros t. reflexivity.
  - apply C104_own.
Qed.
Example C104_case : exists evs e e',
  parse_case with_chars numbers (txt "S") true 200 (text_reader (txt "12,345;6")) = Some (Ok evs) /\
  parse_case with_others numbers (txt "S") true 200 (text_reader (txt "12,345;6")) = Some (Ok evs) /\
  parse_case with_chars numbers (txt "S") true 200 (text_reader (txt "x")) = Some (Err e) /\
  parse_case with_others numbers (txt "S") true 200 (text_reader (txt "x")) = Some (Err e') /\ e <> e' /\ e_loc e = e_loc e'.
Proof. vm_compute. do 3 eexists. split; [reflexivity|]. split; [reflexivity|]. split; [reflexivity|]. split; [reflexivity|]. split; [discriminate|reflexivity]. Qed.
Example C104_regex_limit_case : 256 < 300 /\ 1 <= 257 /\ finds_run a_digit 1 300 (fun t => if Nat.leb 1 (run_of a_digit 300 t) then Some (0, run_of a_digit 300 t) else None) /\ a_digit 48 = true.
Proof. split; [apply Nat.ltb_lt; reflexivity|]. split; [apply Nat.leb_le; reflexivity|]. split; [intros t; reflexivity|reflexivity]. Qed.
Example C104_by_trying_case : let rd := snd (perform true [OMark] (text_reader (txt "12;"))) in let l := loc_new [] in
  reader rd /\ ending_of rd = None /\ ub_stack (mr_ub rd) <> [] /\
  same_scan (special_scan true 10 (with_chars l (txt "num")) l rd) (special_scan true 10 (with_others l (txt "num")) l rd) /\
  ~ same_scan (special_scan true 10 (with_chars l (txt "num")) l rd) (special_scan true 10 (with_chars l (txt "one")) l rd).
Proof.
  split; [eapply (rd_op true OMark (text_reader (txt "12;"))); [apply rd_new|vm_compute; reflexivity]|].
  split; [reflexivity|]. split; [vm_compute; discriminate|]. split; [split; vm_compute; reflexivity|]. intros (H & _). vm_compute in H. discriminate.
Qed.
