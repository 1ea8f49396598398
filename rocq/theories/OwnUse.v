(** Readers of one's own: the result of a parse, the default methods, the reader of the library. *)
From Coq Require Import String List NArith Arith Bool Lia.
From Verif Require Import Base Ident Tokenizer Ast Lex Syntax Io Graph Machine OwnReader SpecParse SpecMachine Pure SpecText SpecIo SpecOwn TextFacts TokRun IoFacts PureFacts MachineFacts OwnFacts.
Import ListNotations.
Open Scope nat_scope.

(** ** The result *)
Lemma own_same : forall U text ending l0 at_ (ops : methods U), serves_parse U text ending l0 at_ ops -> forall debug g fuel m u c l,
  at_ u c -> orderly text c -> at_pos text l0 (c_pos c) l ->
  let lib := parser_parse debug g fuel m (mr_new l (Src [left_ text c] ending)) in
  exists u' c', own_parse ops debug g fuel m u = (fst lib, u') /\ at_ u' c' /\ orderly text c' /\
    left_ text c' = unread (snd lib) /\ at_pos text l0 (c_pos c') (ub_loc (mr_ub (snd lib))) /\ incl (c_marks c) (c_marks c').
Proof.
  intros U text ending l0 at_ ops Hops debug g fuel m u c l Hu Ho Hl. cbv zeta.
  destruct (simu_parse U debug text ending l0 at_ ops Hops g fuel (c_marks c) (mc_entry m) u c (conj Hu Ho) (among_refl _)) as (u' & c' & K1 & (K2 & K3) & K4 & K5).
  pose proof (rep_new l [left_ text c] ending) as R. cbn [concat] in R. rewrite app_nil_r in R.
  destruct (parse_pure debug g fuel (mc_entry m) _ _ _ _ _ R) as (r' & c2 & J1 & J2 & J3). cbn [c_pos] in J1, J3.
  assert (Es : st (left_ text c) l 0 = st text l0 (c_pos c)).
  { unfold st. cbn [skipn]. f_equal. unfold loc_at. cbn [firstn loc_push_str]. eapply reaches_unique; [|apply at_pos_loc]. exact Hl. }
  rewrite Es in J1, J3. destruct (stand_rep _ _ _ _ _ J2) as (J4 & _). rewrite <- J3, K4 in J4.
  exists u', c'. unfold own_parse, parser_parse. rewrite J1, K1. cbn [fst snd]. split; [reflexivity|]. split; [exact K2|]. split; [exact K3|].
  unfold stand, st in J4. injection J4 as J4 J5. split; [unfold left_; congruence|]. split; [rewrite J5; apply at_pos_loc|]. intros x Hx. exact (among_in _ _ K5 _ Hx).
Qed.

(** ** The default methods *)
Section Defaults.
Variable U : Type.
Variable text : str.
Variable ending : option error.
Variable l0 : location.
Variable at_ : U -> cursor -> Prop.
Variable q : required U.
Hypothesis Hq : serves U text ending l0 at_ q.
Lemma bind_done : forall {A B} (m : act U A) (f : A -> act U B) r a r', m r = (Ok a, r') -> ubind U m f r = f a r'.
Proof. intros. unfold ubind. rewrite H. reflexivity. Qed.
Lemma bind_fails : forall {A B} (m : act U A) (f : A -> act U B) r e r', m r = (Err e, r') -> ubind U m f r = (Err e, r').
Proof. intros. unfold ubind. rewrite H. reflexivity. Qed.
Lemma left_more : forall c w rest ms, left_ text c = w ++ rest -> left_ text (Cur (c_pos c + length w) ms) = rest.
Proof. intros c w rest ms H. unfold left_ in *. cbn [c_pos]. exact (skipn_step _ _ _ _ H). Qed.
Lemma left_none : forall c, c_pos c <= length text -> left_ text c = [] -> c_pos c = length text.
Proof. intros c H1 H2. exact (skipn_nil_len _ _ H2 H1). Qed.
Lemma left_length : forall c, c_pos c <= length text -> c_pos c + length (left_ text c) = length text.
Proof. intros c H. unfold left_. rewrite skipn_length. lia. Qed.
Lemma df_read : forall u c, at_ u c -> ending = None \/ left_ text c <> [] -> exists u', default_read U q u = (Ok (hd_error (left_ text c)), u') /\
  at_ u' (Cur (c_pos c + length (firstn 1 (left_ text c))) (c_marks c)).
Proof.
  intros u c H HE. destruct (sv_read _ _ _ _ _ _ Hq _ _ 1 H ltac:(lia) HE) as (w & u' & rest & K1 & K2 & K3 & K4 & K5). exists u'. unfold default_read. rewrite (bind_done _ _ _ _ _ K1).
  destruct w as [|x [|y w]]; [|  |cbn in K3; lia].
  - rewrite (K4 eq_refl) in K2. rewrite K2. split; [reflexivity|exact K5].
  - rewrite K2. split; [reflexivity|exact K5].
Qed.
Lemma df_read_fail : forall u c e, at_ u c -> c_pos c = length text -> ending = Some e -> exists x u', default_read U q u = (Err x, u') /\ tells_of text l0 e x /\ at_ u' c.
Proof.
  intros u c e H Hp HE. destruct (sv_read_fail _ _ _ _ _ _ Hq _ _ 1 e H Hp ltac:(lia) HE) as (x & u' & K1 & K2 & K3). exists x, u'. unfold default_read. rewrite (bind_fails _ _ _ _ _ K1). auto.
Qed.
Lemma df_back : forall u c k m, at_ u (Cur (c_pos c + k) ((m, c_pos c) :: c_marks c)) -> exists n u', q_reset U q m u = (Ok n, u') /\ at_ u' c.
Proof.
  intros u c k m H. destruct (sv_reset _ _ _ _ _ _ Hq _ _ [] m (c_pos c) (c_marks c) H eq_refl ltac:(intros [])) as (u' & K1 & K2).
  exists (c_pos c + k - c_pos c), u'. split; [exact K1|]. destruct c; exact K2.
Qed.
Lemma stops : forall c m, (forall p, In (m, p) (c_marks c) -> p = c_pos c) -> stopped text c (Cur (length text) ((m, c_pos c) :: c_marks c)).
Proof. intros c m H. split; [reflexivity|]. right. exists m. auto. Qed.
Lemma df_is_eof : forall u c, at_ u c -> ending = None \/ ~ beyond (left_ text c) OIsEof -> exists b u', default_is_eof U q u = (Ok b, u') /\ (b = true <-> left_ text c = []) /\ at_ u' c.
Proof.
  intros u c H HE. destruct (sv_mark _ _ _ _ _ _ Hq _ _ H) as (m & u1 & K1 & _ & K3). unfold default_is_eof. rewrite (bind_done _ _ _ _ _ K1).
  destruct (df_read _ _ K3) as (u2 & J1 & J2). { destruct HE as [HE|HE]; [now left|right; intros Z; apply HE; constructor; exact Z]. }
  rewrite (bind_done _ _ _ _ _ J1). cbn [c_pos c_marks] in J2.
  destruct (df_back _ _ _ _ J2) as (n & u3 & I1 & I2). rewrite (bind_done _ _ _ _ _ I1). eexists. exists u3. split; [reflexivity|]. split; [|exact I2].
  change (left_ text {| c_pos := c_pos c; c_marks := (m, c_pos c) :: c_marks c |}) with (left_ text c).
  destruct (left_ text c); cbn; split; congruence.
Qed.
Lemma df_is_eof_fail : forall u c e, at_ u c -> c_pos c <= length text -> ending = Some e -> beyond (left_ text c) OIsEof ->
  exists x u' c', default_is_eof U q u = (Err x, u') /\ tells_of text l0 e x /\ at_ u' c' /\ stopped text c c'.
Proof.
  intros u c e H Hp HE Hb. inversion Hb as [Hl| |]. pose proof (left_none _ Hp Hl) as Hp'.
  destruct (sv_mark _ _ _ _ _ _ Hq _ _ H) as (m & u1 & K1 & K2 & K3). unfold default_is_eof. rewrite (bind_done _ _ _ _ _ K1).
  destruct (df_read_fail _ _ e K3 Hp' HE) as (x & u2 & J1 & J2 & J3). rewrite (bind_fails _ _ _ _ _ J1).
  exists x, u2. eexists. split; [reflexivity|]. split; [exact J2|]. split; [exact J3|]. split; [exact Hp'|]. right. exists m. auto.
Qed.
Lemma df_prefix_loop : forall w u c, at_ u c -> ending = None \/ ~ beyond (left_ text c) (OPrefix w) ->
  exists b k u', default_prefix_loop U q w u = (Ok b, u') /\ (b = true <-> exists rest, left_ text c = w ++ rest) /\
  at_ u' (Cur (c_pos c + k) (c_marks c)).
Proof.
  induction w as [|a w IH]; intros u c H HE.
  - exists true, 0, u. split; [reflexivity|]. split; [split; [intros _; exists (left_ text c); reflexivity|reflexivity]|]. rewrite Nat.add_0_r. destruct c; exact H.
  - cbn [default_prefix_loop]. destruct (df_read _ _ H) as (u1 & K1 & K2).
    { destruct HE as [HE|HE]; [now left|right; intros Z; apply HE; rewrite Z; apply (by_prefix [] a w)]. }
    rewrite (bind_done _ _ _ _ _ K1).
    destruct (left_ text c) as [|x rest] eqn:El; cbn [hd_error firstn length] in *.
    + exists false, 0, u1. split; [reflexivity|]. split; [split; [discriminate|intros (r & Z); discriminate]|exact K2].
    + pose proof (left_more c [x] rest (c_marks c) El : left_ text {| c_pos := c_pos c + 1; c_marks := c_marks c |} = rest) as Em.
      destruct (N.eqb_spec x a) as [->|Hne].
      * destruct (IH _ _ K2) as (b & k & u2 & J1 & J2 & J3).
        { destruct HE as [HE|HE]; [now left|right; rewrite Em; intros Z; inversion Z as [|y s' Z1|]; apply HE; rewrite <- Z1; apply (by_prefix (a :: rest) y s')]. }
        exists b, (1 + k), u2. split; [exact J1|]. cbn [c_pos c_marks] in J3. rewrite Nat.add_assoc. split; [|exact J3].
        rewrite J2, Em. split; intros (r & Z); exists r; [cbn; congruence|]. injection Z as Z. exact Z.
      * exists false, 1, u1. split; [reflexivity|]. split; [|exact K2]. split; [discriminate|]. intros (r & Z). injection Z as Z _. congruence.
Qed.
Lemma df_prefix_loop_fail : forall t u c e y s', left_ text c = t -> at_ u c -> c_pos c <= length text -> ending = Some e ->
  exists x u', default_prefix_loop U q (t ++ y :: s') u = (Err x, u') /\ tells_of text l0 e x /\ at_ u' (Cur (length text) (c_marks c)).
Proof.
  induction t as [|a t IH]; intros u c e y s' El H Hp HE; cbn [app default_prefix_loop].
  - pose proof (left_none _ Hp El) as Hp'. destruct (df_read_fail _ _ e H Hp' HE) as (x & u1 & K1 & K2 & K3). rewrite (bind_fails _ _ _ _ _ K1).
    exists x, u1. rewrite <- Hp'. destruct c; auto.
  - destruct (df_read _ _ H) as (u1 & K1 & K2). { right. rewrite El. discriminate. }
    rewrite (bind_done _ _ _ _ _ K1). rewrite El in *. cbn [hd_error firstn length] in *. rewrite N.eqb_refl.
    pose proof (left_length _ Hp) as Hlen. rewrite El in Hlen. cbn [length] in Hlen.
    exact (IH u1 _ e y s' (left_more c [a] t (c_marks c) El) K2 ltac:(cbn; lia) HE).
Qed.
Lemma df_prefix : forall u c w, at_ u c -> ending = None \/ ~ beyond (left_ text c) (OPrefix w) ->
  exists b u', default_prefix U q w u = (Ok b, u') /\ (b = true <-> exists rest, left_ text c = w ++ rest) /\ at_ u' c.
Proof.
  intros u c w H HE. destruct (sv_mark _ _ _ _ _ _ Hq _ _ H) as (m & u1 & K1 & _ & K3). unfold default_prefix. rewrite (bind_done _ _ _ _ _ K1).
  destruct (df_prefix_loop w _ _ K3 HE) as (b & k & u2 & J1 & J2 & J3). rewrite (bind_done _ _ _ _ _ J1). cbn [c_pos c_marks] in J3.
  destruct (df_back _ _ _ _ J3) as (n & u3 & I1 & I2). rewrite (bind_done _ _ _ _ _ I1). exists b, u3. split; [reflexivity|]. split; [exact J2|exact I2].
Qed.
Lemma df_prefix_fail : forall u c w e, at_ u c -> c_pos c <= length text -> ending = Some e -> beyond (left_ text c) (OPrefix w) ->
  exists x u' c', default_prefix U q w u = (Err x, u') /\ tells_of text l0 e x /\ at_ u' c' /\ stopped text c c'.
Proof.
  intros u c w e H Hp HE Hb. inversion Hb as [|y s' Hw|]. destruct (sv_mark _ _ _ _ _ _ Hq _ _ H) as (m & u1 & K1 & K2 & K3). unfold default_prefix. rewrite (bind_done _ _ _ _ _ K1).
  destruct (df_prefix_loop_fail _ _ _ e y s' eq_refl K3 Hp HE) as (x & u2 & J1 & J2 & J3).
  exists x, u2. eexists. split; [rewrite (bind_fails _ _ _ _ _ J1); reflexivity|]. split; [exact J2|]. split; [exact J3|]. apply stops. exact K2.
Qed.
Lemma df_peek_loop : forall n u c, at_ u c -> ending = None \/ ~ beyond (left_ text c) (OPeek n) -> exists u', default_peek_loop U q n u = (Ok (firstn n (left_ text c)), u') /\
  exists k, at_ u' (Cur (c_pos c + k) (c_marks c)).
Proof.
  induction n as [|n IH]; intros u c H HE.
  - exists u. split; [reflexivity|]. exists 0. rewrite Nat.add_0_r. destruct c; exact H.
  - cbn [default_peek_loop]. destruct (df_read _ _ H) as (u1 & K1 & K2).
    { destruct HE as [HE|HE]; [now left|right; intros Z; apply HE; rewrite Z; constructor; cbn; lia]. }
    rewrite (bind_done _ _ _ _ _ K1).
    destruct (left_ text c) as [|x rest] eqn:El; cbn [hd_error firstn length] in *; [exists u1; split; [reflexivity|eauto]|].
    pose proof (left_more c [x] rest (c_marks c) El : left_ text {| c_pos := c_pos c + 1; c_marks := c_marks c |} = rest) as Em.
    destruct (IH _ _ K2) as (u2 & J1 & k & J2).
    { destruct HE as [HE|HE]; [now left|right; rewrite Em; intros Z; inversion Z; apply HE; constructor; cbn; lia]. }
    rewrite (bind_done _ _ _ _ _ J1). exists u2. rewrite Em. split; [reflexivity|].
    cbn [c_pos c_marks] in J2. exists (1 + k). rewrite Nat.add_assoc. exact J2.
Qed.
Lemma df_peek_loop_fail : forall n u c e, at_ u c -> c_pos c <= length text -> ending = Some e -> length (left_ text c) < n ->
  exists x u', default_peek_loop U q n u = (Err x, u') /\ tells_of text l0 e x /\ at_ u' (Cur (length text) (c_marks c)).
Proof.
  induction n as [|n IH]; intros u c e H Hp HE Hn; [lia|]. cbn [default_peek_loop]. pose proof (left_length _ Hp) as Hlen. destruct (left_ text c) as [|a t] eqn:El.
  - pose proof (left_none _ Hp El) as Hp'. destruct (df_read_fail _ _ e H Hp' HE) as (x & u1 & K1 & K2 & K3). rewrite (bind_fails _ _ _ _ _ K1).
    exists x, u1. rewrite <- Hp'. destruct c; auto.
  - destruct (df_read _ _ H) as (u1 & K1 & K2). { right. rewrite El. discriminate. }
    rewrite (bind_done _ _ _ _ _ K1). rewrite El in *. cbn [hd_error firstn length] in *.
    pose proof (left_more c [a] t (c_marks c) El : left_ text {| c_pos := c_pos c + 1; c_marks := c_marks c |} = t) as Em.
    destruct (IH u1 _ e K2 ltac:(cbn; lia) HE ltac:(rewrite Em; lia)) as (x & u2 & J1 & J2 & J3). rewrite (bind_fails _ _ _ _ _ J1). eauto.
Qed.
Lemma df_peek : forall u c n, at_ u c -> ending = None \/ ~ beyond (left_ text c) (OPeek n) -> exists u', default_peek U q n u = (Ok (firstn n (left_ text c)), u') /\ at_ u' c.
Proof.
  intros u c n H HE. destruct (sv_mark _ _ _ _ _ _ Hq _ _ H) as (m & u1 & K1 & _ & K3). unfold default_peek. rewrite (bind_done _ _ _ _ _ K1).
  destruct (df_peek_loop n _ _ K3 HE) as (u2 & J1 & k & J3). rewrite (bind_done _ _ _ _ _ J1). cbn [c_pos c_marks] in J3.
  destruct (df_back _ _ _ _ J3) as (n' & u3 & I1 & I2). rewrite (bind_done _ _ _ _ _ I1). exists u3. split; [reflexivity|exact I2].
Qed.
Lemma df_peek_fail : forall u c n e, at_ u c -> c_pos c <= length text -> ending = Some e -> beyond (left_ text c) (OPeek n) ->
  exists x u' c', default_peek U q n u = (Err x, u') /\ tells_of text l0 e x /\ at_ u' c' /\ stopped text c c'.
Proof.
  intros u c n e H Hp HE Hb. inversion Hb as [| |n' Hn]. destruct (sv_mark _ _ _ _ _ _ Hq _ _ H) as (m & u1 & K1 & K2 & K3). unfold default_peek. rewrite (bind_done _ _ _ _ _ K1).
  destruct (df_peek_loop_fail n _ _ e K3 Hp HE Hn) as (x & u2 & J1 & J2 & J3).
  exists x, u2. eexists. split; [rewrite (bind_fails _ _ _ _ _ J1); reflexivity|]. split; [exact J2|]. split; [exact J3|]. apply stops. exact K2.
Qed.
Lemma df_skip_loop : forall fuel n u c, n < fuel -> at_ u c -> ending = None \/ n <= length (left_ text c) -> exists u', default_skip_loop U q fuel n u = (Ok (n - length (left_ text c)), u') /\
  at_ u' (Cur (c_pos c + Nat.min n (length (left_ text c))) (c_marks c)).
Proof.
  induction fuel as [|f IH]; intros n u c Hn H HE; [lia|]. cbn [default_skip_loop]. destruct n as [|n].
  - exists u. split; [reflexivity|]. cbn [Nat.min]. rewrite Nat.add_0_r. destruct c; exact H.
  - destruct (sv_read _ _ _ _ _ _ Hq _ _ (Nat.min (S n) io_buffer) H) as (w & u' & rest & K1 & K2 & K3 & K4 & K5). { unfold io_buffer. lia. } { destruct HE as [HE|HE]; [now left|right; intros Z; rewrite Z in HE; cbn in HE; lia]. }
    rewrite (bind_done _ _ _ _ _ K1). destruct w as [|x w].
    + rewrite (K4 eq_refl) in K2. rewrite K2. exists u'. split; [reflexivity|]. cbn [length] in *. rewrite Nat.min_0_r. exact K5.
    + pose proof (left_more c (x :: w) rest (c_marks c) K2) as Em.
      destruct (IH (S n - length (x :: w)) u' _ ltac:(cbn [length]; lia) K5) as (u2 & J1 & J2). { rewrite Em. rewrite K2, app_length in HE. destruct HE as [HE|HE]; [now left|right; lia]. }
      exists u2. rewrite Em in J1, J2. cbn [c_pos c_marks] in J2. rewrite J1, K2, app_length.
      split; [do 2 f_equal; lia|]. replace (c_pos c + Nat.min (S n) (length (x :: w) + length rest)) with (c_pos c + length (x :: w) + Nat.min (S n - length (x :: w)) (length rest)) by lia.
      exact J2.
Qed.
Lemma df_skip_loop_fail : forall fuel n u c e, n < fuel -> at_ u c -> c_pos c <= length text -> ending = Some e -> length (left_ text c) < n ->
  exists x u', default_skip_loop U q fuel n u = (Err x, u') /\ tells_of text l0 e x /\ at_ u' (Cur (length text) (c_marks c)).
Proof.
  induction fuel as [|f IH]; intros n u c e Hn H Hp HE Hl; [lia|]. cbn [default_skip_loop]. destruct n as [|n]; [lia|].
  assert (Hio : 0 < Nat.min (S n) io_buffer) by (unfold io_buffer; lia). pose proof (left_length _ Hp) as Hlen.
  destruct (left_ text c) as [|a t] eqn:El.
  - pose proof (left_none _ Hp El) as Hp'. destruct (sv_read_fail _ _ _ _ _ _ Hq _ _ _ e H Hp' Hio HE) as (x & u1 & K1 & K2 & K3). rewrite (bind_fails _ _ _ _ _ K1).
    exists x, u1. rewrite <- Hp'. destruct c; auto.
  - destruct (sv_read _ _ _ _ _ _ Hq _ _ _ H Hio) as (w & u' & rest & K1 & K2 & K3 & K4 & K5). { right. rewrite El. discriminate. }
    rewrite (bind_done _ _ _ _ _ K1). destruct w as [|x w]; [rewrite (K4 eq_refl), El in K2; discriminate|].
    pose proof (left_more c (x :: w) rest (c_marks c) K2) as Em. rewrite <- El, K2, app_length in Hl, Hlen.
    exact (IH (S n - length (x :: w)) u' _ e ltac:(cbn [length]; lia) K5 ltac:(cbn [c_pos]; lia) HE ltac:(rewrite Em; lia)).
Qed.
Lemma df_skip : forall u c n, at_ u c -> ending = None \/ n <= length (left_ text c) -> exists u', default_skip U q n u = (Ok (Nat.min n (length (left_ text c))), u') /\
  at_ u' (Cur (c_pos c + Nat.min n (length (left_ text c))) (c_marks c)).
Proof.
  intros u c n H HE. unfold default_skip. destruct (df_skip_loop (S n) n u c ltac:(lia) H HE) as (u' & K1 & K2). rewrite (bind_done _ _ _ _ _ K1). exists u'.
  split; [|exact K2]. unfold uret. do 2 f_equal. lia.
Qed.
Lemma df_skip_fail : forall u c n e, at_ u c -> c_pos c <= length text -> ending = Some e -> length (left_ text c) < n ->
  exists x u', default_skip U q n u = (Err x, u') /\ tells_of text l0 e x /\ at_ u' (Cur (length text) (c_marks c)).
Proof.
  intros u c n e H Hp HE Hn. unfold default_skip. destruct (df_skip_loop_fail (S n) n u c e ltac:(lia) H Hp HE Hn) as (x & u' & K1 & K2 & K3). rewrite (bind_fails _ _ _ _ _ K1). eauto.
Qed.
Lemma defaults_serve : serves_parse U text ending l0 at_ (with_defaults U q).
Proof.
  split; [exact (sv_location _ _ _ _ _ _ Hq)|exact (sv_mark _ _ _ _ _ _ Hq)|exact (sv_reset _ _ _ _ _ _ Hq)|exact (sv_unmark _ _ _ _ _ _ Hq)|
    exact df_read|exact df_read_fail|exact df_is_eof|exact df_is_eof_fail|exact df_prefix|exact df_prefix_fail|exact df_peek|exact df_peek_fail|exact df_skip|exact df_skip_fail].
Qed.
End Defaults.

(** ** The reader of the library *)
Lemma bind_same : forall {A B} (m m' : M A) (k k' : A -> M B) r, m r = m' r -> (forall a r', k a r' = k' a r') -> mbind m k r = mbind m' k' r.
Proof. intros A B m m' k k' r H1 H2. unfold mbind. rewrite H1. destruct (m' r) as ([a|e|p|] & r'); [apply H2|reflexivity..]. Qed.
Lemma rep_same : forall debug (sub sub' : list event -> M (prospect * list event)), (forall e r, sub e r = sub' e r) ->
  forall fuel mn mx i temp r, rep_loop debug sub fuel mn mx i temp r = rep_loop debug sub' fuel mn mx i temp r.
Proof.
  intros debug sub sub' H. induction fuel as [|f IH]; intros mn mx i temp r; [reflexivity|]. cbn [rep_loop]. destruct (N.ltb i mx); [|reflexivity].
  apply bind_same; [reflexivity|]. intros loc r1. apply bind_same; [reflexivity|]. intros mark r2. apply bind_same; [apply H|]. intros ([|e] & t) r3; [|reflexivity].
  apply bind_same; [reflexivity|]. intros loc' r4. destruct ((mx =? u32_max)%N && loc_eqb loc' loc)%bool; [reflexivity|apply IH].
Qed.
Lemma or_same : forall debug (sub sub' : nat -> M (prospect * list event)), (forall a r, sub a r = sub' a r) ->
  forall subs r, or_loop debug sub subs r = or_loop debug sub' subs r.
Proof.
  intros debug sub sub' H. induction subs as [|a subs IH]; intros r; [reflexivity|]. cbn [or_loop].
  apply bind_same; [reflexivity|]. intros mark r2. apply bind_same; [apply H|]. intros ([|e] & t) r3; [reflexivity|].
  apply bind_same; [reflexivity|]. intros _ r4. apply bind_same; [apply IH|]. reflexivity.
Qed.
Lemma special_same : forall debug g (sub sub' : subrun), (forall a e r, sub a e r = sub' a e r) ->
  forall fuel addr ins sc events r, special_step debug g sub fuel addr ins sc events r = special_step debug g sub' fuel addr ins sc events r.
Proof.
  intros debug g sub sub' H fuel addr ins sc events r. unfold special_step. apply bind_same; [reflexivity|]. intros mark r2. apply bind_same; [reflexivity|].
  intros [evts| |id] r3; [reflexivity|reflexivity|]. destruct (g_label g id) as [next|]; [|reflexivity].
  apply bind_same; [reflexivity|]. intros _ r4. apply bind_same; [apply H|]. reflexivity.
Qed.
Lemma except_same : forall debug g (sub : subrun) (own : own_subrun mreader), (forall a e r, own a e r = sub a e r) ->
  forall fuel addr factor exc events r, own_except_scan mreader debug g (library_methods debug) own sub fuel addr factor exc events r =
    except_scan debug g sub fuel addr factor exc events r.
Proof.
  intros debug g sub own H fuel addr factor exc events r. unfold own_except_scan, except_scan. 
  change (@ubind mreader) with (@mbind). apply bind_same; [reflexivity|]. intros begin r1. apply bind_same; [reflexivity|]. intros mark r2.
  apply bind_same; [apply H|]. intros ([|e] & temp) r3; reflexivity.
Qed.
Lemma own_run_library : forall debug g fuel next events r,
  own_run mreader debug g (library_methods debug) fuel next events r = run debug g fuel next events r.
Proof.
  intros debug g. induction fuel as [|f IH]; intros next events r; [reflexivity|]. cbn [own_run run]. change (@ubind mreader) with (@mbind).
  destruct next as [addr|]; [|reflexivity]. destruct (nth_error (g_instrs g) addr) as [ins|]; [|reflexivity].
  assert (Hc : forall (pe : prospect * list event) r, (let '(p, evs) := pe in match p with NotThisWay e => uret mreader (NotThisWay e, evs) | Proceed => own_run mreader debug g (library_methods debug) f (i_next ins) evs end) r =
     (let '(p, evs) := pe in match p with NotThisWay e => ret (NotThisWay e, evs) | Proceed => run debug g f (i_next ins) evs end) r).
  { intros ([|e] & evs) r1; [apply IH|reflexivity]. }
  destruct (i_step ins) as [mn mx s|subs|s|sc| |fa ex|id].
  - apply bind_same; [exact (rep_same debug _ _ (fun e r => IH (Some s) e r) _ _ _ _ _ _)|]. intros [e|temp] r1; [reflexivity|apply IH].
  - apply bind_same; [exact (or_same debug _ _ (fun a r => IH (Some a) [] r) _ _)|]. intros [es|temp] r1; [|apply IH].
    destruct (pick_error (rev es)) as [err|]; [|reflexivity]. apply bind_same; [reflexivity|]. intros l r2. destruct (loc_eqb (e_loc err) l); reflexivity.
  - apply bind_same; [reflexivity|]. exact Hc.
  - apply bind_same; [exact (special_same debug g _ _ (fun a e r => IH (Some a) e r) _ _ _ _ _ _)|]. exact Hc.
  - apply IH.
  - apply bind_same; [exact (except_same debug g _ _ (fun a e r => IH (Some a) e r) _ _ _ _ _ _)|]. exact Hc.
  - destruct (g_label g id) as [a|]; [|reflexivity]. destruct (g_canonical g id) as [nm|]; [|reflexivity].
    apply bind_same; [reflexivity|]. intros l r1. apply bind_same; [apply IH|]. intros ([|e] & temp) r2; [|reflexivity].
    apply bind_same; [reflexivity|]. intros l' r3. apply IH.
Qed.
Lemma own_library : forall debug g fuel m r, own_parse (library_methods debug) debug g fuel m r = parser_parse debug g fuel m r.
Proof.
  intros debug g fuel m r. unfold own_parse, parser_parse, own_machine_parse, machine_parse. change (@ubind mreader) with (@mbind).
  apply bind_same; [apply own_run_library|]. intros ([|e] & events) r1; reflexivity.
Qed.
Lemma one_split : forall (m : N) (n1 n2 o1 o2 : list (N * nat)) p1 p2, n1 ++ (m, p1) :: o1 = n2 ++ (m, p2) :: o2 ->
  ~ In m (map fst n1) -> ~ In m (map fst n2) -> p1 = p2 /\ o1 = o2.
Proof.
  intros m. induction n1 as [|x n1 IH]; intros [|y n2] o1 o2 p1 p2 E H1 H2; cbn [app] in E.
  - injection E as E1 E2. auto.
  - injection E as E1 E2. exfalso. apply H2. left. rewrite <- E1. reflexivity.
  - injection E as E1 E2. exfalso. apply H1. left. rewrite E1. reflexivity.
  - injection E as E1 E2. apply (IH _ _ _ _ _ E2); intros Z; [apply H1|apply H2]; right; exact Z.
Qed.
(** The reader of the library, built for release, serves its text. *)
Lemma library_serves : forall text ending l0, serves mreader text ending l0 (rep text ending l0) (library_required false).
Proof.
  intros text ending l0. split; cbn [library_required q_location q_mark q_reset q_unmark q_read_chars].
  - intros u c (b & R). rewrite (rp_loc _ _ _ _ _ _ R). apply at_pos_loc.
  - intros u c R. destruct (rep_mark' text ending l0 false u c R) as (m & r' & K1 & K2 & K3 & _). exists m, r'. split; [exact K1|]. split; [|exact K3].
    intros p Hp. apply (K2 _ _ Hp). reflexivity.
  - intros u c newer m p older R Em Hn. assert (Hin : In (m, p) (c_marks c)) by (rewrite Em; apply in_elt).
    destruct (rep_reset text ending l0 m u c R) as (a & r' & c' & K1 & K2 & K3 & _). destruct (m_reset m u) as (x & r1). cbn in K1. inversion K2; subst.
    2:{ match goal with H : ~ In ?z _, D : _ = _ \/ _ = _ |- _ => assert (z = m) by (destruct D as [D|D]; congruence); exfalso; apply H; subst; apply in_map_iff; exists (m, p); split; [reflexivity|exact Hin] end. }
    2:{ match goal with H : beyond _ _ |- _ => inversion H end. }
    2:{ match goal with H : _ \/ _ |- _ => destruct H as [H|(? & H & _)]; discriminate end. }
    injection K1 as K1 <-. destruct x; try discriminate. injection K1 as ->.
    match goal with H : c_marks c = ?a ++ (m, ?b) :: ?d, H' : ~ In m (map fst ?a) |- _ => destruct (one_split m newer a older d p b (eq_trans (eq_sym Em) H) Hn H') as (<- & <-) end.
    exists r1. split; [f_equal; f_equal; lia|exact K3].
  - intros u c newer m p older R Em Hn. assert (Hin : In (m, p) (c_marks c)) by (rewrite Em; apply in_elt).
    destruct (rep_unmark text ending l0 m u c R) as (a & r' & c' & K1 & K2 & K3). destruct (m_unmark m u) as (x & r1). cbn in K1. inversion K2; subst.
    2:{ match goal with H : ~ In ?z _, D : _ = _ \/ _ = _ |- _ => assert (z = m) by (destruct D as [D|D]; congruence); exfalso; apply H; subst; apply in_map_iff; exists (m, p); split; [reflexivity|exact Hin] end. }
    2:{ match goal with H : beyond _ _ |- _ => inversion H end. }
    2:{ match goal with H : _ \/ _ |- _ => destruct H as [H|(? & H & _)]; discriminate end. }
    injection K1 as K1 <-. destruct x as [[]| | |]; try discriminate.
    match goal with H : c_marks c = ?a ++ (m, ?b) :: ?d, H' : ~ In m (map fst ?a) |- _ => destruct (one_split m newer a older d p b (eq_trans (eq_sym Em) H) Hn H') as (<- & <-) end.
    exists r1. split; [reflexivity|exact K3].
  - intros u c n R Hn HE. pose proof (rep_read text ending l0 false n u c R) as K. unfold left_ in *. inversion K as [s rest r' H1 H2 H3 H4 H5 H6|r' H1 H2 H3 H4|r' H1 H2 H3 H4 H5|r' e H1 H2 H3 H4 H5|r' H1]; [| | | |discriminate].
    + exists s, r', rest. split; [reflexivity|]. split; [exact H3|]. split; [exact H2|]. split; [intros Z; contradiction|exact H4].
    + lia.
    + exists [], r', []. split; [reflexivity|]. split; [exact H1|]. split; [cbn; lia|]. split; [reflexivity|]. cbn [length]. rewrite Nat.add_0_r. destruct c; exact H3.
    + exfalso. destruct HE as [HE|HE]; [congruence|exact (HE H1)].
  - intros u c n e R Hp Hn HE. pose proof (rep_read text ending l0 false n u c R) as K. inversion K as [s rest r' H1 H2 H3 H4 H5 H6|r' H1 H2 H3 H4|r' H1 H2 H3 H4 H5|r' e' H1 H2 H3 H4 H5|r' H1]; [| | | |discriminate].
    + exfalso. rewrite Hp, skipn_all in H3. destruct s; [contradiction|discriminate].
    + lia.
    + congruence.
    + rewrite H2 in HE. injection HE as <-. eexists. exists r'. split; [reflexivity|]. split; [|exact H3]. exists (loc_at text l0 (c_pos c)). split; [rewrite <- Hp; apply at_pos_loc|reflexivity].
Qed.

(** ** A plain reader of one's own: a text, a position, numbered marks *)
Record plain := Plain { pl_pos : nat; pl_fresh : N; pl_marks : list (N * nat) }.
Section Plain.
Variable text : str.
Variable ending : option error.
Variable l0 : location.
Definition pl_find (m : N) (u : plain) : option (N * nat) := find (fun x => N.eqb (fst x) m) (pl_marks u).
Definition plain_required : required plain :=
  Required plain
    (fun n u => match ending, n, skipn (pl_pos u) text with
                | Some e, S _, [] => (Err (Error_ (loc_push_str l0 text) (MWrapped (e_loc e) (e_msg e))), u)
                | _, _, rest => (Ok (firstn n rest), Plain (pl_pos u + length (firstn n rest)) (pl_fresh u) (pl_marks u))
                end)
    (fun u => loc_push_str l0 (firstn (pl_pos u) text))
    (fun u => (Ok (pl_fresh u), Plain (pl_pos u) (pl_fresh u + 1) ((pl_fresh u, pl_pos u) :: pl_marks u)))
    (fun m u => match pl_find m u with
                | Some (_, p) => (Ok (pl_pos u - p), Plain p (pl_fresh u) (pl_marks u))
                | None => (Err (Error_ (loc_push_str l0 (firstn (pl_pos u) text)) (MInvalidMark m [])), u)
                end)
    (fun m u => (Ok tt, Plain (pl_pos u) (pl_fresh u) (filter (fun x => negb (N.eqb (fst x) m)) (pl_marks u)))).
Definition plain_at (u : plain) (c : cursor) : Prop := pl_pos u = c_pos c /\ pl_pos u <= length text /\ incl (c_marks c) (pl_marks u) /\
  NoDup (map fst (c_marks c)) /\ NoDup (map fst (pl_marks u)) /\ forall m p, In (m, p) (pl_marks u) -> (m < pl_fresh u)%N /\ p <= length text.
Lemma find_mine : forall (l : list (N * nat)) m p, NoDup (map fst l) -> In (m, p) l -> find (fun x => N.eqb (fst x) m) l = Some (m, p).
Proof.
  induction l as [|(m1 & p1) l IH]; intros m p Hd Hin; [destruct Hin|]. cbn [find fst map] in *. inversion Hd; subst. destruct (N.eqb_spec m1 m) as [->|Hne].
  - destruct Hin as [Hin|Hin]; [congruence|]. exfalso. apply H1. apply in_map_iff. exists (m, p). auto.
  - destruct Hin as [Hin|Hin]; [congruence|]. apply IH; assumption.
Qed.
Lemma nodup_filter : forall (l : list (N * nat)) f, NoDup (map fst l) -> NoDup (map fst (filter f l)).
Proof.
  induction l as [|x l IH]; intros f H; [constructor|]. cbn [filter map] in *. inversion H; subst. destruct (f x); [|apply IH; assumption].
  cbn [map]. constructor; [|apply IH; assumption]. intros Z. apply H2. apply in_map_iff in Z as (y & E & Hy). apply filter_In in Hy as (Hy & _). apply in_map_iff. eauto.
Qed.
Lemma nodup_split : forall (newer older : list (N * nat)) m p, NoDup (map fst (newer ++ (m, p) :: older)) -> NoDup (map fst older) /\ ~ In m (map fst older).
Proof. intros newer older m p H. rewrite map_app in H. cbn [map fst] in H. pose proof (NoDup_remove _ _ _ H) as (A & B). split; [|intros Z; apply B, in_or_app; auto]. clear H B. revert A. generalize (map fst older). induction (map fst newer) as [|x l IH]; intros k A; [exact A|]. inversion A; subst. apply IH. assumption. Qed.
Lemma plain_serves : serves plain text ending l0 plain_at plain_required.
Proof.
  split; cbn [plain_required q_location q_mark q_reset q_unmark q_read_chars].
  - intros u c (E1 & _). rewrite <- E1. apply reaches_push. reflexivity.
  - intros u c (E1 & Hb & Hi & Hd & Hd2 & Hf). eexists. eexists. split; [reflexivity|]. split.
    + intros p Hp. destruct (Hf _ _ (Hi _ Hp)) as (Z & _). lia.
    + rewrite E1. split; [reflexivity|]. cbn [pl_pos pl_marks pl_fresh c_pos c_marks map fst]. split; [congruence|]. split; [intros x [<-|Hx]; [now left|right; auto]|].
      assert (Hn : forall l, incl l (pl_marks u) -> ~ In (pl_fresh u) (map fst l)).
      { intros l Hl Z. apply in_map_iff in Z as ((m1 & p1) & Z1 & Z2). cbn [fst] in Z1. destruct (Hf _ _ (Hl _ Z2)). lia. }
      split; [constructor; [apply Hn; exact Hi|exact Hd]|]. split; [constructor; [apply Hn; intros x Hx; exact Hx|exact Hd2]|].
      intros m p [Z|Z]; [injection Z as <- <-; split; [lia|congruence]|]. destruct (Hf _ _ Z). split; [lia|assumption].
  - intros u c newer m p older (E1 & Hb & Hi & Hd & Hd2 & Hf) Em Hn.
    assert (Hin : In (m, p) (pl_marks u)) by (apply Hi; rewrite Em; apply in_elt). unfold pl_find. rewrite (find_mine _ _ _ Hd2 Hin). eexists. split; [rewrite E1; reflexivity|].
    split; [reflexivity|]. cbn [pl_pos pl_marks pl_fresh c_pos c_marks]. split; [apply (Hf _ _ Hin)|]. rewrite Em in Hi, Hd. destruct (nodup_split _ _ _ _ Hd) as (D1 & _).
    split; [intros x Hx; apply Hi, in_or_app; right; right; exact Hx|]. auto.
  - intros u c newer m p older (E1 & Hb & Hi & Hd & Hd2 & Hf) Em Hn. eexists. split; [reflexivity|]. split; [exact E1|]. cbn [pl_pos pl_marks pl_fresh c_pos c_marks]. split; [exact Hb|].
    rewrite Em in Hi, Hd. destruct (nodup_split _ _ _ _ Hd) as (D1 & D2). split.
    + intros x Hx. apply filter_In. split; [apply Hi, in_or_app; right; right; exact Hx|]. destruct (N.eqb_spec (fst x) m) as [<-|_]; [|reflexivity]. exfalso. apply D2, in_map, Hx.
    + split; [exact D1|]. split; [apply nodup_filter; exact Hd2|]. intros m1 p1 Z. apply filter_In in Z as (Z & _). exact (Hf _ _ Z).
  - intros u c n (E1 & Hb & Hi & Hd & Hd2 & Hf) Hn HE. unfold left_ in *. rewrite <- E1 in *.
    exists (firstn n (skipn (pl_pos u) text)). eexists. exists (skipn n (skipn (pl_pos u) text)). split.
    { destruct n; [lia|]. destruct ending; [|reflexivity]. destruct (skipn (pl_pos u) text); [destruct HE as [HE|HE]; [discriminate|contradiction]|reflexivity]. }
    split; [symmetry; apply firstn_skipn|]. split; [rewrite firstn_length; lia|]. split.
    + intros Z. destruct (skipn (pl_pos u) text); [destruct n; reflexivity|]. destruct n; [lia|discriminate].
    + split; [reflexivity|]. cbn [pl_pos pl_marks pl_fresh c_pos c_marks]. split; [rewrite firstn_length, skipn_length; lia|]. auto.
  - intros u c n e H Hp Hn HE. pose proof H as (E1 & _). rewrite HE. destruct n; [lia|]. rewrite E1, Hp, skipn_all. eexists. exists u. split; [reflexivity|]. split; [|exact H].
    exists (loc_push_str l0 text). split; [|reflexivity]. unfold at_pos. rewrite firstn_all. apply reaches_push. reflexivity.
Qed.
Lemma plain_start : plain_at (Plain 0 0 []) (Cur 0 []).
Proof. split; [reflexivity|]. cbn. split; [lia|]. split; [intros x []|]. split; [constructor|]. split; [constructor|]. intros m p []. Qed.
End Plain.
