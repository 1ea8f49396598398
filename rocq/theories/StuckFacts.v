(** What the lexer does with the tokens it keeps after an error. *)
From Coq Require Import String List NArith Arith Bool Lia.
From Verif Require Import Base Tokenizer Ast Lex LexRelease SpecLex SpecTok TokFacts TokRun SpecBuild BuildFacts.
Import ListNotations.
Open Scope nat_scope.

(** ** More fuel changes nothing *)
Definition stays {A} (x y : res A) : Prop := x = OutOfFuel \/ y = x.
Lemma stays_bind : forall A B (x y : res A) (k k' : A -> res B), stays x y -> (forall a, stays (k a) (k' a)) -> stays (bind x k) (bind y k').
Proof. intros A B x y k k' [->| ->] H; [left; reflexivity|]. destruct x as [a|e|p|]; cbn; try (right; reflexivity). apply H. Qed.
Lemma stays_refl : forall A (x : res A), stays x x.
Proof. right. reflexivity. Qed.
Lemma more_fuel : forall f f', f <= f' -> (forall all ts, stays (read_definition_list f all ts) (read_definition_list f' all ts)) /\
  (forall all ts, stays (read_single_definition f all ts) (read_single_definition f' all ts)) /\
  (forall all ts, stays (read_syntactic_term f all ts) (read_syntactic_term f' all ts)) /\
  (forall all ts, stays (read_syntactic_factor f all ts) (read_syntactic_factor f' all ts)) /\
  (forall all ts, stays (read_syntactic_primary f all ts) (read_syntactic_primary f' all ts)).
Proof.
  induction f as [|f IH]; intros f' Hf; [repeat split; left; reflexivity|]. destruct f' as [|f']; [lia|].
  destruct (IH f' ltac:(lia)) as (I1 & I2 & I3 & I4 & I5). clear IH. split; [|split; [|split; [|split]]]; intros all ts.
  - cbn [read_definition_list]. apply stays_bind; [apply I2|]. intros (sd & next). destruct (skip_trivia next) as [|t r]; [apply stays_refl|].
    destruct (is_terminator t); [apply stays_refl|]. apply stays_bind; [apply I1|]. intros; apply stays_refl.
  - cbn [read_single_definition]. apply stays_bind; [apply I3|]. intros (tm & next). destruct (skip_trivia next) as [|t r]; [apply stays_refl|].
    destruct t; cbn [is_terminator]; try apply stays_refl. apply stays_bind; [apply I2|]. intros; apply stays_refl.
  - cbn [read_syntactic_term]. apply stays_bind; [apply I4|]. intros (fa & next). destruct (skip_trivia next) as [|t r]; [apply stays_refl|].
    destruct t; try apply stays_refl. apply stays_bind; [apply I4|]. intros; apply stays_refl.
  - cbn [read_syntactic_factor]. apply stays_bind; [apply stays_refl|]. intros (n & next). apply stays_bind; [apply I5|]. intros; apply stays_refl.
  - cbn [read_syntactic_primary]. destruct (skip_trivia ts) as [|t r]; [apply stays_refl|]. destruct t; try apply stays_refl.
    + destruct (_ && _); [apply stays_refl|]. apply stays_bind; [|intros; apply stays_refl]. destruct (find_close _ _ _ _) as [(sub & next)|]; [|apply stays_refl]. apply stays_bind; [apply I1|]. intros; apply stays_refl.
    + destruct (_ && _); [apply stays_refl|]. apply stays_bind; [|intros; apply stays_refl]. destruct (find_close _ _ _ _) as [(sub & next)|]; [|apply stays_refl]. apply stays_bind; [apply I1|]. intros; apply stays_refl.
    + apply stays_bind; [|intros; apply stays_refl]. destruct (find_close _ _ _ _) as [(sub & next)|]; [|apply stays_refl]. apply stays_bind; [apply I1|]. intros; apply stays_refl.
Qed.

(** ** More tokens after a terminator change nothing, unless a bracket is open *)
Definition final (ts : list token) : Prop := exists a t, ts = a ++ [t] /\ is_terminator t = true.
Lemma final_cons : forall t r, final (t :: r) -> is_terminator t = false -> final r.
Proof.
  intros t r ([|x a] & y & E & Hy) Ht; cbn in E.
  - injection E as -> _. congruence.
  - injection E as _ ->. exists a, y. auto.
Qed.
Lemma final_some : forall ts, final ts -> exists t r, ts = t :: r.
Proof. intros ts ([|x a] & y & -> & _); cbn; eauto. Qed.
Lemma skip_final : forall ts c, final ts -> final (skip_trivia ts) /\ skip_trivia (ts ++ c) = skip_trivia ts ++ c.
Proof.
  induction ts as [|t ts IH]; intros c H; [destruct (final_some _ H) as (? & ? & ?); discriminate|]. cbn [app skip_trivia].
  destruct (is_gap_token t || is_comment t) eqn:E; [|split; [exact H|reflexivity]]. apply IH. apply (final_cons t); [exact H|]. destruct t; cbn in *; congruence.
Qed.
Lemma rmi_loop_final : forall ts id lo c, final ts -> match rmi_loop id lo ts with (id', lo', n) => rmi_loop id lo (ts ++ c) = (id', lo', n ++ c) /\ final n end.
Proof.
  induction ts as [|t ts IH]; intros id lo c H; [destruct (final_some _ H) as (? & ? & ?); discriminate|].
  destruct t; cbn [app rmi_loop]; try (split; [reflexivity|exact H]); apply IH; apply (final_cons _ _ H); reflexivity.
Qed.
Lemma rmi_final : forall ts c, final ts -> match read_meta_identifier ts with (id, lo, n) => read_meta_identifier (ts ++ c) = (id, lo, n ++ c) /\ final n end.
Proof.
  intros ts c H. unfold read_meta_identifier. destruct (skip_final ts c H) as (H1 & ->). pose proof (rmi_loop_final (skip_trivia ts) [] None c H1) as K.
  destruct (rmi_loop [] None (skip_trivia ts)) as ((id & lo) & n). destruct K as (-> & K). auto.
Qed.
Lemma find_close_final : forall o cl ts d a b c, (forall t, cl t = true -> is_terminator t = false) -> final ts -> find_close o cl d ts = Some (a, b) ->
  find_close o cl d (ts ++ c) = Some (a, b ++ c) /\ final b.
Proof.
  intros o cl. induction ts as [|t ts IH]; intros d a b c Hcl H E; [discriminate|]. cbn [app find_close] in *.
  assert (Hts : forall d', find_close o cl d' ts <> None -> final ts).
  { intros d' Hd. destruct (is_terminator t) eqn:Et; [|exact (final_cons _ _ H Et)]. destruct ts as [|t2 ts]; [cbn in Hd; congruence|].
    destruct H as ([|x p] & y & E0 & Hy); [discriminate|]. injection E0 as _ ->. exists p, y. auto. }
  assert (Go : forall d', match find_close o cl d' ts with Some (a0, b0) => Some (t :: a0, b0) | None => None end = Some (a, b) ->
     match find_close o cl d' (ts ++ c) with Some (a0, b0) => Some (t :: a0, b0) | None => None end = Some (a, b ++ c) /\ final b).
  { intros d' E'. destruct (find_close o cl d' ts) as [(a0 & b0)|] eqn:F; [|discriminate]. injection E' as <- <-.
    destruct (IH d' a0 b0 c Hcl (Hts d' ltac:(congruence)) F) as (-> & K). auto. }
  destruct (o t); [apply Go; exact E|]. destruct (cl t) eqn:Ec; [|apply Go; exact E]. destruct d as [|d]; [|apply Go; exact E].
  injection E as <- <-. split; [reflexivity|]. apply (final_cons t); [exact H|]. apply Hcl. exact Ec.
Qed.

Definition carries {A} (c : list token) (x y : res (A * list token)) : Prop :=
  match x with
  | Ok (a, n) => y = Ok (a, n ++ c) /\ final n
  | Err e => about_closing (e_msg e) \/ y = Err e
  | Panic p => y = Panic p
  | OutOfFuel => True
  end.
Definition carries_whole {A} (x y : res A) : Prop :=
  match x with
  | Ok a => y = Ok a
  | Err e => about_closing (e_msg e) \/ y = Err e
  | Panic p => y = Panic p
  | OutOfFuel => True
  end.
Lemma carries_bind : forall A B c (x y : res (A * list token)) (k k' : A * list token -> res (B * list token)), carries c x y ->
  (forall a n, final n -> carries c (k (a, n)) (k' (a, n ++ c))) -> carries c (bind x k) (bind y k').
Proof.
  intros A B c [(a & n)|e|p|] y k k' H K; cbn in *; try exact I.
  - destruct H as (-> & H). apply K. exact H.
  - destruct H as [H| ->]; [left; exact H|right; reflexivity].
  - rewrite H. reflexivity.
Qed.
Lemma whole_bind : forall A B c (x y : res (A * list token)) (k k' : A * list token -> res B), carries c x y ->
  (forall a n, final n -> carries_whole (k (a, n)) (k' (a, n ++ c))) -> carries_whole (bind x k) (bind y k').
Proof.
  intros A B c [(a & n)|e|p|] y k k' H K; cbn in *; try exact I.
  - destruct H as (-> & H). apply K. exact H.
  - destruct H as [H| ->]; [left; exact H|right; reflexivity].
  - rewrite H. reflexivity.
Qed.
Lemma whole_whole : forall A B (x y : res A) (k : A -> res B), carries_whole x y -> carries_whole (bind x k) (bind y k).
Proof.
  intros A B [a|e|p|] y k H; cbn in *; try exact I.
  - rewrite H. cbn. destruct (k a); cbn; auto.
  - destruct H as [H| ->]; [left; exact H|right; reflexivity].
  - rewrite H. reflexivity.
Qed.
Lemma enclosed_final : forall f f' o cl open r c, f <= f' -> (forall t, cl t = true -> is_terminator t = false) -> final r ->
  carries c
    (match find_close o cl 0 r with
     | Some (sub, next) => let? d := read_definition_list f sub sub in Ok (d, next)
     | None => Err (Error_ (tok_loc open) (MNotClosed (tok_name open) (tok_debug open)))
     end)
    (match find_close o cl 0 (r ++ c) with
     | Some (sub, next) => let? d := read_definition_list f' sub sub in Ok (d, next)
     | None => Err (Error_ (tok_loc open) (MNotClosed (tok_name open) (tok_debug open)))
     end).
Proof.
  intros f f' o cl open r c Hf Hcl H. destruct (find_close o cl 0 r) as [(sub & next)|] eqn:E.
  - destruct (find_close_final o cl r 0 sub next c Hcl H E) as (-> & Hn). destruct (proj1 (more_fuel f f' Hf) sub sub) as [->| ->]; [exact I|].
    destruct (read_definition_list f sub sub) as [d|e|p|]; cbn; auto.
  - left. cbn. eexists. eexists. reflexivity.
Qed.
Lemma descent_final : forall f f', f <= f' -> (forall all all' ts c, final ts -> carries_whole (read_definition_list f all ts) (read_definition_list f' all' (ts ++ c))) /\
  (forall all all' ts c, final ts -> carries c (read_single_definition f all ts) (read_single_definition f' all' (ts ++ c))) /\
  (forall all all' ts c, final ts -> carries c (read_syntactic_term f all ts) (read_syntactic_term f' all' (ts ++ c))) /\
  (forall all all' ts c, final ts -> carries c (read_syntactic_factor f all ts) (read_syntactic_factor f' all' (ts ++ c))) /\
  (forall all all' ts c, final ts -> carries c (read_syntactic_primary f all ts) (read_syntactic_primary f' all' (ts ++ c))).
Proof.
  induction f as [|f IH]; intros f' Hf; [repeat split|]. destruct f' as [|f']; [lia|]. assert (Hf1 : f <= f') by lia.
  destruct (IH f' Hf1) as (I1 & I2 & I3 & I4 & I5). clear IH. split; [|split; [|split; [|split]]]; intros all all' ts c H.
  - cbn [read_definition_list]. eapply whole_bind; [apply I2; exact H|]. intros sd n Hn. destruct (skip_final n c Hn) as (H1 & ->).
    destruct (final_some _ H1) as (t & r & E). rewrite E in *. cbn [app]. destruct (is_terminator t) eqn:Et; [reflexivity|].
    apply whole_whole. destruct t; (apply (I1 all all' (_ :: r) c H1) || apply (I1 all all' r c (final_cons _ _ H1 eq_refl))).
  - cbn [read_single_definition]. eapply carries_bind; [apply I3; exact H|]. intros tm n Hn. destruct (skip_final n c Hn) as (H1 & ->).
    destruct (final_some _ H1) as (t & r & E). rewrite E in *. cbn [app].
    destruct t; cbn [is_terminator]; try (right; reflexivity); try (split; [reflexivity|exact H1]).
    eapply carries_bind; [apply I2; exact (final_cons _ _ H1 eq_refl)|]. intros x y Hy. split; [reflexivity|exact Hy].
  - cbn [read_syntactic_term]. eapply carries_bind; [apply I4; exact H|]. intros fa n Hn. destruct (skip_final n c Hn) as (H1 & ->).
    destruct (final_some _ H1) as (t & r & E). rewrite E in *. cbn [app].
    destruct t; try (split; [reflexivity|exact H1]).
    eapply carries_bind; [apply I4; exact (final_cons _ _ H1 eq_refl)|]. intros x y Hy. split; [reflexivity|exact Hy].
  - cbn [read_syntactic_factor]. eapply carries_bind with (c := c).
    + destruct (skip_final ts c H) as (H1 & ->). destruct (final_some _ H1) as (t & r & E). rewrite E in *. cbn [app].
      destruct t; try (split; [reflexivity|exact H1]). match goal with |- context [parse_u32 ?d] => destruct (parse_u32 d) end; [|right; reflexivity].
      pose proof (final_cons _ _ H1 eq_refl) as H2. destruct (skip_final r c H2) as (H3 & ->). destruct (final_some _ H3) as (t' & r' & E'). rewrite E' in *. cbn [app].
      destruct t'; try (right; reflexivity). pose proof (final_cons _ _ H3 eq_refl) as H4. destruct (skip_final r' c H4) as (H5 & ->). split; [reflexivity|exact H5].
    + intros n next Hn. eapply carries_bind; [apply I5; exact Hn|]. intros x y Hy. split; [reflexivity|exact Hy].
  - cbn [read_syntactic_primary]. destruct (skip_final ts c H) as (H1 & ->). destruct (final_some _ H1) as (t & r & E). rewrite E in *. cbn [app].
    assert (Hh : is_terminator t = false -> (match r ++ c with t :: _ => is_end_group t | [] => false end) = (match r with t :: _ => is_end_group t | [] => false end)).
    { intros Et. destruct (final_some _ (final_cons _ _ H1 Et)) as (x & y & ->). reflexivity. }
    destruct t; try (split; [reflexivity|exact H1]); try (split; [reflexivity|exact (final_cons _ _ H1 eq_refl)]).
    + rewrite (Hh eq_refl). destruct (_ && _); [right; reflexivity|]. eapply carries_bind; [apply enclosed_final; [exact Hf1| |exact (final_cons _ _ H1 eq_refl)]|]; [intros [] X; try discriminate; reflexivity|].
      intros d n Hn. split; [reflexivity|exact Hn].
    + rewrite (Hh eq_refl). destruct (_ && _); [right; reflexivity|]. eapply carries_bind; [apply enclosed_final; [exact Hf1| |exact (final_cons _ _ H1 eq_refl)]|]; [intros [] X; try discriminate; reflexivity|].
      intros d n Hn. split; [reflexivity|exact Hn].
    + eapply carries_bind; [apply enclosed_final; [exact Hf1| |exact (final_cons _ _ H1 eq_refl)]|]; [intros [] X; try discriminate; reflexivity|].
      intros d n Hn. split; [reflexivity|exact Hn].
    + match goal with |- context [read_meta_identifier (?t :: r)] => pose proof (rmi_final (t :: r) c H1) as K; cbn [app] in K; destruct (read_meta_identifier (t :: r)) as ((id & lo) & n) end.
      destruct K as (-> & K). split; [reflexivity|exact K].
Qed.
Lemma build_final : forall ts c e, final ts -> build_syntax_rule_release ts = Err e -> ~ about_closing (e_msg e) -> build_syntax_rule_release (ts ++ c) = Err e.
Proof.
  intros ts c e H E He. unfold build_syntax_rule_release in *. pose proof (rmi_final ts c H) as K. destruct (read_meta_identifier ts) as ((id & lo) & n).
  destruct K as (-> & K). destruct (skip_final n c K) as (H1 & ->). destruct (final_some _ H1) as (t & r & Es). rewrite Es in *. cbn [app].
  destruct lo as [l|]; [|exact E]. destruct t; cbn [is_defining_symbol negb] in *; try exact E. destruct id as [|x id]; [exact E|].
  assert (Hf : rd_fuel ts <= rd_fuel (ts ++ c)) by (unfold rd_fuel; rewrite app_length; lia).
  pose proof (proj1 (descent_final _ _ Hf) ts (ts ++ c) r c (final_cons _ _ H1 eq_refl)) as D.
  destruct (read_definition_list (rd_fuel ts) ts r) as [d|e0|p|]; cbn [bind] in E; try discriminate. injection E as ->. destruct D as [D| ->]; [contradiction|reflexivity].
Qed.

(** ** Results of the tokenizer *)
Definition clean {A} (r : res A) : Prop := match r with Err e => about_characters (e_msg e) | _ => True end.
Lemma read_next_clean : forall loc b flush, clean (read_next loc b flush).
Proof.
  intros loc b flush. unfold read_next. destruct b as [|c r]; [exact I|]. cbn zeta.
  repeat match goal with |- clean (if ?x then _ else _) => destruct x end; try exact I; try constructor.
  - unfold terminal_string. destruct (scan_to c is_terminal r) as [| |[|]]; try exact I; try constructor. destruct flush; [constructor|exact I].
  - assert (HC : clean (comment loc (c :: r) flush)).
    { unfold comment. destruct r as [|p r]; [exact I|]. destruct (comment_loop p 0 _ r) as [| |[|]]; try exact I; try constructor. destruct flush; [constructor|exact I]. }
    destruct r as [|d [|e r]]; try exact I.
    + destruct (d =? c_star)%N; [exact HC|]. destruct (d =? c_slash)%N; [exact I|]. destruct (d =? c_colon)%N; exact I.
    + destruct (d =? c_star)%N; [destruct (e =? c_rpar)%N; [constructor|exact HC]|]. destruct (d =? c_slash)%N; [exact I|]. destruct (d =? c_colon)%N; exact I.
  - unfold special_sequence. destruct (scan_to c_quest is_special r) as [| |]; try exact I; try constructor. destruct flush; [constructor|exact I].
Qed.
Lemma push_clean : forall t s, match snd (tk_push_str t s) with Ok _ => True | Err e => about_characters (e_msg e) | _ => False end.
Proof.
  intros t s. unfold tk_push_str, over_capacity. destruct (_ && _); [constructor|]. unfold tokenize. cbn [tk_buf tk_loc].
  destruct (loop_steps (S (length (tk_buf t ++ s))) (tk_buf t ++ s) (tk_loc t) (Nat.lt_succ_diag_r _)) as (ts & l & b & _ & [(_ & ->)|(e & He & ->)]); [exact I|].
  pose proof (read_next_clean l b false) as K. rewrite He in K. exact K.
Qed.
Lemma flush_clean : forall t, match snd (tk_flush t) with Ok _ => True | Err e => about_characters (e_msg e) | Panic p => p = PAssert | OutOfFuel => False end.
Proof.
  intros t. unfold tk_flush. pose proof (read_next_clean (tk_loc t) (tk_buf t) true) as H. pose proof (read_next_no_panic (tk_loc t) (tk_buf t) true) as Hp.
  destruct (read_next (tk_loc t) (tk_buf t) true) as [[(k & n)|]|e|p|]; try contradiction; [| |exact H]; cbn [tk_buf]; destruct (skipn _ _); exact I || reflexivity.
Qed.

(** ** After an error *)
Definition sour (e : error) (cur : list token) : Prop := exists ts c, cur = ts ++ c /\ final ts /\ build_syntax_rule_release ts = Err e.
Lemma sour_more : forall e cur t, sour e cur -> sour e (cur ++ [t]).
Proof. intros e cur t (ts & c & -> & H1 & H2). exists ts, (c ++ [t]). rewrite <- app_assoc. auto. Qed.
Lemma append_sour : forall e, ~ about_closing (e_msg e) -> forall new cur, sour e cur ->
  sour e (fst (append_loop_release cur new)) /\ (snd (append_loop_release cur new) = Ok [] \/ snd (append_loop_release cur new) = Err e).
Proof.
  intros e He. induction new as [|t new IH]; intros cur H; [split; [exact H|left; reflexivity]|]. cbn [append_loop_release].
  pose proof (sour_more e cur t H) as H'. destruct (is_terminator t); [|apply IH; exact H'].
  destruct H' as (ts & c & E & H1 & H2). rewrite E, (build_final ts c e H1 H2 He). cbn [fst snd]. split; [exists ts, c; auto|right; reflexivity].
Qed.
Lemma append_sours : forall new cur e, snd (append_loop_release cur new) = Err e -> sour e (fst (append_loop_release cur new)).
Proof.
  induction new as [|t new IH]; intros cur e H; [discriminate|]. cbn [append_loop_release] in *. destruct (is_terminator t) eqn:Et; [|apply IH; exact H].
  destruct (build_syntax_rule_release (cur ++ [t])) as [o|e0|p|] eqn:Eb; cbn [snd fst] in *; try discriminate.
  - specialize (IH [] e). destruct (append_loop_release [] new) as (c & [rs|e1|p|]); cbn [snd fst] in *; try discriminate. apply IH. exact H.
  - injection H as ->. exists (cur ++ [t]), []. rewrite app_nil_r. split; [reflexivity|]. split; [exists cur, t; auto|exact Eb].
Qed.
(** A debug build with a terminator among the tokens it keeps. *)
Lemma append_spoilt : forall new cur, existsb is_terminator cur = true -> existsb is_terminator (fst (append_loop cur new)) = true /\
  (snd (append_loop cur new) = Ok [] \/ snd (append_loop cur new) = Panic PDebugAssert).
Proof.
  induction new as [|t new IH]; intros cur H; [split; [exact H|left; reflexivity]|]. cbn [append_loop].
  assert (H' : existsb is_terminator (cur ++ [t]) = true) by (rewrite existsb_app, H; reflexivity). destruct (is_terminator t) eqn:Et; [|apply IH; exact H'].
  rewrite build_builds. enough (one_final_terminator (cur ++ [t]) = false) as -> by (split; [exact H'|right; reflexivity]).
  unfold one_final_terminator. rewrite rev_app_distr. cbn [rev app]. rewrite Et. cbn [andb]. apply existsb_exists in H as (x & Hx & Tx).
  enough (existsb is_terminator (rev cur) = true) as -> by reflexivity. apply existsb_exists. exists x. split; [apply in_rev in Hx; exact Hx|exact Tx].
Qed.
Lemma append_spoils : forall new cur e, snd (append_loop cur new) = Err e -> existsb is_terminator (fst (append_loop cur new)) = true.
Proof.
  induction new as [|t new IH]; intros cur e H; [discriminate|]. cbn [append_loop] in *. destruct (is_terminator t) eqn:Et; [|apply (IH _ e); exact H].
  destruct (build_syntax_rule (cur ++ [t])) as [o|e0|p|] eqn:Eb; cbn [snd fst] in *; try discriminate.
  - specialize (IH [] e). destruct (append_loop [] new) as (c & [rs|e1|p|]); cbn [snd fst] in *; try discriminate. apply IH. exact H.
  - rewrite existsb_app. cbn. rewrite Et, orb_true_r. reflexivity.
Qed.

(** ** Calls *)
Section Calls.
(** Either build: [append] is [append_loop] or [append_loop_release]. *)
Variable append : list token -> list token -> list token * res (list rule).
Variable bad : list token -> Prop.
Variable says : res (list rule) -> Prop.
Hypothesis bad_append : forall new cur, bad cur -> bad (fst (append cur new)) /\ (snd (append cur new) = Ok [] \/ says (snd (append cur new))).
Definition put (lx : lexer) (tk : tokenizer) (r : res (list token)) : lexer * res (list rule) :=
  match r with
  | Ok new => let '(ts, rs) := append (lx_tokens lx) new in (Lx tk ts, rs)
  | Err e => (Lx tk (lx_tokens lx), Err e)
  | Panic p => (Lx tk (lx_tokens lx), Panic p)
  | OutOfFuel => (Lx tk (lx_tokens lx), OutOfFuel)
  end.
Lemma put_bad : forall lx tk r, bad (lx_tokens lx) -> bad (lx_tokens (fst (put lx tk r))) /\
  match r with Ok _ => snd (put lx tk r) = Ok [] \/ says (snd (put lx tk r)) | Err e => snd (put lx tk r) = Err e | Panic p => snd (put lx tk r) = Panic p | OutOfFuel => True end.
Proof.
  intros lx tk [new|e|p|] H; cbn [put fst snd lx_tokens]; try (split; [exact H|reflexivity || exact I]).
  destruct (bad_append new (lx_tokens lx) H) as (K1 & K2). destruct (append (lx_tokens lx) new) as (ts & rs). exact (conj K1 K2).
Qed.
End Calls.
Lemma release_sour : forall e, ~ about_closing (e_msg e) -> forall lx h, h <> HReset -> sour e (lx_tokens lx) ->
  sour e (lx_tokens (release_step lx h)) /\ (gave (release_observe lx h) e \/ silent (release_observe lx h)).
Proof.
  intros e He lx h Hh H.
  assert (B : forall new cur, sour e cur -> sour e (fst (append_loop_release cur new)) /\ (snd (append_loop_release cur new) = Ok [] \/ snd (append_loop_release cur new) = Err e)).
  { intros new cur Hc. apply append_sour; assumption. }
  destruct h as [c|s| |]; [| | |congruence]; cbn [release_step release_observe].
  - unfold lx_push_release, tk_push. pose proof (push_clean (lx_tk lx) [c]) as Hp. destruct (tk_push_str (lx_tk lx) [c]) as (tk & r). cbn [snd] in Hp.
    destruct (put_bad append_loop_release (sour e) (fun x => x = Err e) B lx tk r H) as (K1 & K2). change (put append_loop_release lx tk r) with (lx_append_release lx tk r) in *.
    destruct (lx_append_release lx tk r) as (lx' & rs). cbn [fst snd] in *. split; [exact K1|]. destruct r as [new|e'|p|]; try contradiction.
    + destruct K2 as [->| ->]; [right; constructor|left; left; reflexivity].
    + subst rs. right. apply (si_characters _ e'); [left; reflexivity|exact Hp].
  - unfold lx_push_str_release. pose proof (push_clean (lx_tk lx) s) as Hp. destruct (tk_push_str (lx_tk lx) s) as (tk & r). cbn [snd] in Hp.
    destruct (put_bad append_loop_release (sour e) (fun x => x = Err e) B lx tk r H) as (K1 & K2). change (put append_loop_release lx tk r) with (lx_append_release lx tk r) in *.
    destruct (lx_append_release lx tk r) as (lx' & rs). cbn [fst snd] in *. split; [exact K1|]. destruct r as [new|e'|p|]; try contradiction.
    + destruct K2 as [->| ->]; [right; constructor|left; right; reflexivity].
    + subst rs. right. apply (si_characters _ e'); [right; reflexivity|exact Hp].
  - unfold lx_flush_release. pose proof (flush_clean (lx_tk lx)) as Hp. destruct (tk_flush (lx_tk lx)) as (tk & r). cbn [snd] in Hp.
    destruct (put_bad append_loop_release (sour e) (fun x => x = Err e) B lx tk r H) as (K1 & K2). change (put append_loop_release lx tk r) with (lx_append_release lx tk r) in *.
    destruct (lx_append_release lx tk r) as (lx' & rs). cbn [fst snd] in *. split; [exact K1|]. destruct r as [new|e'|p|]; try contradiction.
    + destruct K2 as [->| ->]; [right; constructor|left; left; reflexivity].
    + subst rs. right. apply (si_characters _ e'); [left; reflexivity|exact Hp].
    + subst rs p. right. apply si_flush.
Qed.
Lemma debug_spoilt : forall lx h, h <> HReset -> existsb is_terminator (lx_tokens lx) = true ->
  existsb is_terminator (lx_tokens (hstep lx h)) = true /\ (stopped (hobserve lx h) \/ silent (hobserve lx h)).
Proof.
  intros lx h Hh H. pose (bad := fun cur => existsb is_terminator cur = true). change (bad (lx_tokens lx)) in H. change (bad (lx_tokens (hstep lx h)) /\ (stopped (hobserve lx h) \/ silent (hobserve lx h))).
  assert (B : forall new cur, bad cur -> bad (fst (append_loop cur new)) /\ (snd (append_loop cur new) = Ok [] \/ snd (append_loop cur new) = Panic PDebugAssert)) by exact append_spoilt.
  destruct h as [c|s| |]; [| | |congruence]; cbn [hstep hobserve].
  - unfold lx_push, tk_push. pose proof (push_clean (lx_tk lx) [c]) as Hp. destruct (tk_push_str (lx_tk lx) [c]) as (tk & r). cbn [snd] in Hp.
    destruct (put_bad append_loop bad (fun x => x = Panic PDebugAssert) B lx tk r H) as (K1 & K2). change (put append_loop lx tk r) with (lx_append lx tk r) in *.
    destruct (lx_append lx tk r) as (lx' & rs). cbn [fst snd] in *. split; [exact K1|]. destruct r as [new|e'|p|]; try contradiction.
    + destruct K2 as [->| ->]; [right; constructor|left; constructor].
    + subst rs. right. apply (si_characters _ e'); [left; reflexivity|exact Hp].
  - unfold lx_push_str. pose proof (push_clean (lx_tk lx) s) as Hp. destruct (tk_push_str (lx_tk lx) s) as (tk & r). cbn [snd] in Hp.
    destruct (put_bad append_loop bad (fun x => x = Panic PDebugAssert) B lx tk r H) as (K1 & K2). change (put append_loop lx tk r) with (lx_append lx tk r) in *.
    destruct (lx_append lx tk r) as (lx' & rs). cbn [fst snd] in *. split; [exact K1|]. destruct r as [new|e'|p|]; try contradiction.
    + destruct K2 as [->| ->]; [right; constructor|left; constructor].
    + subst rs. right. apply (si_characters _ e'); [right; reflexivity|exact Hp].
  - unfold lx_flush. pose proof (flush_clean (lx_tk lx)) as Hp. destruct (tk_flush (lx_tk lx)) as (tk & r). cbn [snd] in Hp.
    destruct (put_bad append_loop bad (fun x => x = Panic PDebugAssert) B lx tk r H) as (K1 & K2). change (put append_loop lx tk r) with (lx_append lx tk r) in *.
    destruct (lx_append lx tk r) as (lx' & rs). cbn [fst snd] in *. split; [exact K1|]. destruct r as [new|e'|p|]; try contradiction.
    + destruct K2 as [->| ->]; [right; constructor|left; constructor].
    + subst rs. right. apply (si_characters _ e'); [left; reflexivity|exact Hp].
    + subst rs p. right. apply si_flush.
Qed.

(** The first error: whatever came before. *)
Lemma release_sours : forall lx h e, gave (release_observe lx h) e -> ~ about_characters (e_msg e) -> sour e (lx_tokens (release_step lx h)).
Proof.
  assert (P : forall lx tk r e, match r with Err e => about_characters (e_msg e) | _ => True end -> snd (lx_append_release lx tk r) = Err e -> ~ about_characters (e_msg e) ->
    sour e (lx_tokens (fst (lx_append_release lx tk r)))).
  { intros lx tk [new|e'|p|] e Hr E He; cbn [lx_append_release snd fst] in *; try discriminate; [|congruence].
    pose proof (append_sours new (lx_tokens lx) e) as K. destruct (append_loop_release (lx_tokens lx) new) as (ts & rs). exact (K E). }
  intros lx [c|s| |] e H He; cbn [release_step release_observe] in *.
  - unfold lx_push_release, tk_push in *. pose proof (push_clean (lx_tk lx) [c]) as Hp. destruct (tk_push_str (lx_tk lx) [c]) as (tk & r). cbn [snd] in Hp.
    specialize (P lx tk r e). destruct (lx_append_release lx tk r) as (lx' & rs). cbn [fst snd] in *. apply P; [destruct r; auto| |exact He].
    destruct H as [H|H]; [|discriminate]. destruct rs as [rs|e0|p|]; cbn in H; try discriminate. congruence.
  - unfold lx_push_str_release in *. pose proof (push_clean (lx_tk lx) s) as Hp. destruct (tk_push_str (lx_tk lx) s) as (tk & r). cbn [snd] in Hp.
    specialize (P lx tk r e). destruct (lx_append_release lx tk r) as (lx' & rs). cbn [fst snd] in *. apply P; [destruct r; auto| |exact He].
    destruct H as [H|H]; [discriminate|]. congruence.
  - unfold lx_flush_release in *. pose proof (flush_clean (lx_tk lx)) as Hp. destruct (tk_flush (lx_tk lx)) as (tk & r). cbn [snd] in Hp.
    specialize (P lx tk r e). destruct (lx_append_release lx tk r) as (lx' & rs). cbn [fst snd] in *. apply P; [destruct r; auto| |exact He].
    destruct H as [H|H]; [|discriminate]. destruct rs as [rs|e0|p|]; cbn in H; try discriminate. congruence.
  - destruct H; discriminate.
Qed.
Lemma debug_spoils : forall lx h e, gave (hobserve lx h) e -> ~ about_characters (e_msg e) -> existsb is_terminator (lx_tokens (hstep lx h)) = true.
Proof.
  assert (P : forall lx tk r e, match r with Err e => about_characters (e_msg e) | _ => True end -> snd (lx_append lx tk r) = Err e -> ~ about_characters (e_msg e) ->
    existsb is_terminator (lx_tokens (fst (lx_append lx tk r))) = true).
  { intros lx tk [new|e'|p|] e Hr E He; cbn [lx_append snd fst] in *; try discriminate; [|congruence].
    pose proof (append_spoils new (lx_tokens lx) e) as K. destruct (append_loop (lx_tokens lx) new) as (ts & rs). exact (K E). }
  intros lx [c|s| |] e H He; cbn [hstep hobserve] in *.
  - unfold lx_push, tk_push in *. pose proof (push_clean (lx_tk lx) [c]) as Hp. destruct (tk_push_str (lx_tk lx) [c]) as (tk & r). cbn [snd] in Hp.
    specialize (P lx tk r e). destruct (lx_append lx tk r) as (lx' & rs). cbn [fst snd] in *. apply P; [destruct r; auto| |exact He].
    destruct H as [H|H]; [|discriminate]. destruct rs as [rs|e0|p|]; cbn in H; try discriminate. congruence.
  - unfold lx_push_str in *. pose proof (push_clean (lx_tk lx) s) as Hp. destruct (tk_push_str (lx_tk lx) s) as (tk & r). cbn [snd] in Hp.
    specialize (P lx tk r e). destruct (lx_append lx tk r) as (lx' & rs). cbn [fst snd] in *. apply P; [destruct r; auto| |exact He].
    destruct H as [H|H]; [discriminate|]. congruence.
  - unfold lx_flush in *. pose proof (flush_clean (lx_tk lx)) as Hp. destruct (tk_flush (lx_tk lx)) as (tk & r). cbn [snd] in Hp.
    specialize (P lx tk r e). destruct (lx_append lx tk r) as (lx' & rs). cbn [fst snd] in *. apply P; [destruct r; auto| |exact He].
    destruct H as [H|H]; [|discriminate]. destruct rs as [rs|e0|p|]; cbn in H; try discriminate. congruence.
  - destruct H; discriminate.
Qed.
Lemma release_repeats : forall later lx e, ~ about_closing (e_msg e) -> sour e (lx_tokens lx) -> ~ In HReset later ->
  Forall (fun o => gave o e \/ silent o) (release_observations lx later).
Proof.
  induction later as [|h later IH]; intros lx e He H Hn; [constructor|]. cbn [release_observations].
  destruct (release_sour e He lx h (fun E => Hn (or_introl E)) H) as (K1 & K2). constructor; [exact K2|]. apply IH; [exact He|exact K1|]. intros Hi. apply Hn. right. exact Hi.
Qed.
Lemma debug_repeats : forall later lx, existsb is_terminator (lx_tokens lx) = true -> ~ In HReset later ->
  Forall (fun o => stopped o \/ silent o) (observations lx later).
Proof.
  induction later as [|h later IH]; intros lx H Hn; [constructor|]. cbn [observations].
  destruct (debug_spoilt lx h (fun E => Hn (or_introl E)) H) as (K1 & K2). constructor; [exact K2|]. apply IH; [exact K1|]. intros Hi. apply Hn. right. exact Hi.
Qed.
