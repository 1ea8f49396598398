(** The machine over a reader computes what the pure machine computes. *)
From Coq Require Import String List NArith Arith Bool Lia Sorted.
From Verif Require Import Base Ident Tokenizer Ast Lex Syntax Io Graph Machine SpecParse Pure SpecText SpecIo TextFacts TokRun IoFacts.
Import ListNotations.
Open Scope nat_scope.

(** Subsequences. *)
Inductive among {A} : list A -> list A -> Prop :=
| am_nil : forall l, among [] l
| am_skip : forall x a b, among a b -> among a (x :: b)
| am_keep : forall x a b, among a b -> among (x :: a) (x :: b).
Lemma among_refl : forall {A} (l : list A), among l l.
Proof. induction l; [apply am_nil|apply am_keep; assumption]. Qed.
Lemma among_trans : forall {A} (b c : list A), among b c -> forall a, among a b -> among a c.
Proof.
  induction 1 as [l|x b c H IH|x b c H IH]; intros a Ha.
  - inversion Ha. constructor.
  - apply am_skip. auto.
  - inversion Ha; subst; [apply am_nil|apply am_skip; auto|apply am_keep; auto].
Qed.
Lemma among_ne : forall {A} (a b : list A), among a b -> a <> [] -> b <> [].
Proof. intros A a b H Ha Hb. subst b. inversion H. congruence. Qed.
Lemma among_below : forall (m : N) (q : nat) S newer p older, among ((m, q) :: S) (newer ++ (m, p) :: older) ->
  ~ In m (map fst newer) -> among S older.
Proof.
  intros m q S newer. induction newer as [|(m1 & q1) newer IH]; intros p older H Hn; cbn in H.
  - inversion H; subst; [|assumption]. eapply among_trans; [eassumption|]. apply am_skip. apply among_refl.
  - inversion H; subst; [|exfalso; apply Hn; left; reflexivity].
    eapply IH; [eassumption|]. intros Z. apply Hn. right. exact Z.
Qed.
Lemma among_in : forall {A} (a b : list A), among a b -> forall x, In x a -> In x b.
Proof. induction 1; intros y Hy; [contradiction|right; auto|]. destruct Hy; [left; assumption|right; auto]. Qed.

Lemma pbind_ok : forall {A B} (m : P A) (f : A -> P B) r a r', m r = (Ok a, r') -> pbind m f r = f a r'.
Proof. intros. unfold pbind. rewrite H. reflexivity. Qed.
Lemma pbind_err : forall {A B} (m : P A) (f : A -> P B) r e r', m r = (Err e, r') -> pbind m f r = (Err e, r').
Proof. intros. unfold pbind. rewrite H. reflexivity. Qed.
Lemma pbind_panic : forall {A B} (m : P A) (f : A -> P B) r e r', m r = (Panic e, r') -> pbind m f r = (Panic e, r').
Proof. intros. unfold pbind. rewrite H. reflexivity. Qed.
Lemma pbind_fuel : forall {A B} (m : P A) (f : A -> P B) r r', m r = (OutOfFuel, r') -> pbind m f r = (OutOfFuel, r').
Proof. intros. unfold pbind. rewrite H. reflexivity. Qed.

Section Sim.
Variable debug : bool.
Variable T : str.
Variable E : option error.
Variable l0 : location.
Notation rep := (rep T E l0).
Notation loc_at := (loc_at T l0).

Definition st (p : nat) : pst := Pst (skipn p T) (loc_at p).
(** From any reader with at least the marks [ctx]: the same result, at the same
    place, with at least the marks [base] left. *)
Definition simc {A} (ctx base : list (N * nat)) (m : M A) (f : P A) : Prop :=
  forall r c, rep r c -> among ctx (c_marks c) ->
  exists r' c', m r = (fst (f (st (c_pos c))), r') /\ rep r' c' /\
    snd (f (st (c_pos c))) = st (c_pos c') /\ among base (c_marks c').

Lemma simc_weak : forall {A} ctx ctx' base base' (m : M A) f, among ctx ctx' -> among base' base ->
  simc ctx base m f -> simc ctx' base' m f.
Proof.
  intros A ctx ctx' base base' m f H1 H2 S r c R O.
  destruct (S r c R (among_trans _ _ O _ H1)) as (r' & c' & K1 & K2 & K3 & K4). exists r', c'.
  split; auto. split; auto. split; auto. eapply among_trans; eauto.
Qed.
Lemma simc_ret : forall {A} base (a : A), simc base base (ret a) (pret a).
Proof. intros A base a r c R O. exists r, c. auto. Qed.
Lemma simc_fail : forall {A} base e, simc base base (@fail A e) (pfail e).
Proof. intros A base a r c R O. exists r, c. auto. Qed.
Lemma simc_crash : forall {A} base e, simc base base (@crash A e) (pcrash e).
Proof. intros A base a r c R O. exists r, c. auto. Qed.
Lemma simc_no_fuel : forall {A} base, simc base base (@no_fuel A) pno_fuel.
Proof. intros A base r c R O. exists r, c. auto. Qed.
Lemma simc_bind : forall {A B} ctx mid base (m : M A) f (k : A -> M B) h, among base mid ->
  simc ctx mid m f -> (forall a, simc mid base (k a) (h a)) -> simc ctx base (mbind m k) (pbind f h).
Proof.
  intros A B ctx mid base m f k h Ht S1 S2 r c R O.
  destruct (S1 r c R O) as (r1 & c1 & K1 & K2 & K3 & K4). unfold mbind, pbind. rewrite K1.
  destruct (f (st (c_pos c))) as (x & s1) eqn:Ef. cbn [fst snd] in *. subst s1.
  destruct x as [a|e|p|].
  - exact (S2 a r1 c1 K2 K4).
  - exists r1, c1. split; auto. split; auto. split; auto. eapply among_trans; eauto.
  - exists r1, c1. split; auto. split; auto. split; auto. eapply among_trans; eauto.
  - exists r1, c1. split; auto. split; auto. split; auto. eapply among_trans; eauto.
Qed.
Lemma simc_seq : forall {A B} ctx (m : M A) f (k : A -> M B) h,
  simc ctx ctx m f -> (forall a, simc ctx ctx (k a) (h a)) -> simc ctx ctx (mbind m k) (pbind f h).
Proof. intros. eapply simc_bind; eauto. apply among_refl. Qed.
Lemma simc_location : forall base, simc base base m_location ploc.
Proof.
  intros base r c R O. exists r, c. split; [|auto]. unfold m_location, ploc, st. cbn.
  destruct R as (b & R). rewrite (rp_loc _ _ _ _ _ _ R). reflexivity.
Qed.
Lemma simc_mark : forall {B} ctx base (k : N -> M B) h,
  (forall m q, q <= length T -> simc ((m, q) :: ctx) base (k m) (h (st q))) -> simc ctx base (mbind (m_mark debug) k) (pbind pget h).
Proof.
  intros B ctx base k h S r c R O.
  destruct (rep_mark' T E l0 debug r c R) as (m & r1 & K1 & K2 & K3 & K4).
  rewrite (mbind_ok _ _ _ _ _ K1). apply (S m (c_pos c) (rep_bound _ _ _ _ _ R) r1 _ K3). cbn. apply am_keep. exact O.
Qed.
Lemma same_id : forall r c, rep r c -> forall m p q, In (m, p) (c_marks c) -> In (m, q) (c_marks c) -> p = q.
Proof.
  intros r c (b & R) m p q H1 H2. pose proof (rp_marks _ _ _ _ _ _ R) as F. rewrite Forall_forall in F.
  destruct (F _ H1) as (A1 & A2 & A3 & _). destruct (F _ H2) as (B1 & B2 & B3 & _). cbn [fst snd] in *. lia.
Qed.
Lemma reset_known : forall ctx m q r c, rep r c -> among ((m, q) :: ctx) (c_marks c) ->
  exists n r' c', m_reset m r = (Ok n, r') /\ rep r' c' /\ c_pos c' = q /\ among ctx (c_marks c') /\ q + n = c_pos c.
Proof.
  intros ctx m q r c R O. destruct (rep_reset T E l0 m r c R) as (a & r' & c' & K1 & K2 & K3 & _).
  pose proof (among_in _ _ O _ (or_introl eq_refl)) as Hin.
  destruct (m_reset m r) as (x & r1). cbn in K1. inversion K2; subst.
  2:{ match goal with H : ~ In ?z _, D : _ = _ \/ _ = _ |- _ =>
        assert (z = m) by (destruct D as [D|D]; congruence); exfalso; apply H; subst;
        apply in_map_iff; exists (m, q); split; [reflexivity|exact Hin] end. }
  2:{ match goal with H : beyond _ _ |- _ => inversion H end. }
  2:{ match goal with H : _ \/ _ |- _ => destruct H as [H|(? & H & _)]; discriminate end. }
  match goal with H : c_marks c = ?a ++ _ |- _ => pose proof H as Hmk end.
  injection K1 as K1 <-. destruct x; try discriminate.
  assert (Hpq : p = q). { eapply same_id; [exact R| |exact Hin]. rewrite Hmk. apply in_elt. }
  eexists _, _, _. split; [reflexivity|]. split; [exact K3|]. cbn. split; [exact Hpq|]. split.
  - rewrite Hmk in O. eapply among_below; eauto.
  - injection K1 as ->. congruence.
Qed.
Lemma unmark_known : forall ctx m q r c, rep r c -> among ((m, q) :: ctx) (c_marks c) ->
  exists r' c', m_unmark m r = (Ok tt, r') /\ rep r' c' /\ c_pos c' = c_pos c /\ among ctx (c_marks c').
Proof.
  intros ctx m q r c R O. destruct (rep_unmark T E l0 m r c R) as (a & r' & c' & K1 & K2 & K3).
  pose proof (among_in _ _ O _ (or_introl eq_refl)) as Hin.
  destruct (m_unmark m r) as (x & r1). cbn in K1. inversion K2; subst.
  2:{ match goal with H : ~ In ?z _, D : _ = _ \/ _ = _ |- _ =>
        assert (z = m) by (destruct D as [D|D]; congruence); exfalso; apply H; subst;
        apply in_map_iff; exists (m, q); split; [reflexivity|exact Hin] end. }
  2:{ match goal with H : beyond _ _ |- _ => inversion H end. }
  2:{ match goal with H : _ \/ _ |- _ => destruct H as [H|(? & H & _)]; discriminate end. }
  match goal with H : c_marks c = ?a ++ _ |- _ => pose proof H as Hmk end.
  injection K1 as K1 <-. destruct x as [[]| | |]; try discriminate.
  eexists _, _. split; [reflexivity|]. split; [exact K3|]. cbn. split; [reflexivity|].
  rewrite Hmk in O. eapply among_below; eauto.
Qed.
Lemma simc_reset : forall {B} ctx base m q (k : nat -> M B) h, q <= length T ->
  (forall n, simc ctx base (k n) (h tt)) -> simc ((m, q) :: ctx) base (mbind (m_reset m) k) (pbind (pput (st q)) h).
Proof.
  intros B ctx base m q k h Hq S r c R O.
  destruct (reset_known _ _ _ _ _ R O) as (n & r1 & c1 & K1 & K2 & K3 & K4 & _).
  rewrite (mbind_ok _ _ _ _ _ K1). unfold pbind, pput. rewrite <- K3. apply S; auto.
Qed.
Lemma simc_unmark : forall {B} ctx base m q (k : unit -> M B) h,
  simc ctx base (k tt) h -> simc ((m, q) :: ctx) base (mbind (m_unmark m) k) h.
Proof.
  intros B ctx base m q k h S r c R O.
  destruct (unmark_known _ _ _ _ _ R O) as (r1 & c1 & K1 & K2 & K3 & K4).
  rewrite (mbind_ok _ _ _ _ _ K1). rewrite <- K3. apply S; auto.
Qed.
Lemma st_move : forall n p, n <= length (skipn p T) -> move n (st p) = st (p + n).
Proof.
  intros n p H. unfold move, st. cbn [p_rest p_at]. f_equal; [apply skipn_skipn'|].
  pose proof (loc_at_add T l0 p (firstn n (skipn p T)) (skipn n (skipn p T)) (eq_sym (firstn_skipn _ _))) as L.
  rewrite <- L. f_equal. rewrite firstn_length. lia.
Qed.
Lemma pread_st : forall p, pread E (st p) = (char_at T E l0 p, match char_at T E l0 p with Ok (Some _) => st (S p) | _ => st p end).
Proof.
  intros p. unfold pread, char_at. unfold st at 1. cbn [p_rest]. destruct (skipn p T) as [|x r] eqn:Es.
  - destruct E; reflexivity.
  - rewrite st_move by (rewrite Es; cbn; lia). rewrite Nat.add_1_r. reflexivity.
Qed.
Lemma simc_read : forall ctx, ctx <> [] -> simc ctx ctx (m_read debug) (pread E).
Proof.
  intros ctx Hc r c R O. pose proof (among_ne _ _ O Hc) as Hm.
  destruct (rep_read1 T E l0 debug r c R (safe_marks _ _ _ _ _ _ R Hm)) as (r1 & K1 & K2 & _).
  rewrite pread_st. exists r1. eexists. split; [exact K1|]. split; [exact K2|]. cbn [c_pos c_marks snd]. split; [|exact O].
  destruct (char_at T E l0 (c_pos c)) as [[|]| | |]; rewrite ?Nat.add_1_r, ?Nat.add_0_r; reflexivity.
Qed.
Lemma pprefix_loop_st : forall s p, pprefix_loop E s (st p) = (fst (p_prefix T E l0 s p), st (snd (p_prefix T E l0 s p))).
Proof.
  induction s as [|a s IH]; intros p; [reflexivity|]. cbn [pprefix_loop p_prefix]. unfold pbind. rewrite pread_st.
  destruct (char_at T E l0 p) as [[x|]| | |]; try reflexivity. destruct (N.eqb x a); [apply IH|reflexivity].
Qed.
Lemma ppeek_loop_st : forall n p, ppeek_loop E n (st p) = (fst (p_peek T E l0 n p), st (snd (p_peek T E l0 n p))).
Proof.
  induction n as [|n IH]; intros p; [reflexivity|]. cbn [ppeek_loop p_peek]. unfold pbind. rewrite pread_st.
  destruct (char_at T E l0 p) as [[x|]| | |]; try reflexivity. rewrite IH.
  destruct (p_peek T E l0 n (S p)) as ([y| | |] & q); reflexivity.
Qed.
Lemma simc_is_eof : forall ctx, simc ctx ctx (m_is_eof debug) (peof E).
Proof.
  intros ctx r c R O. destruct (rep_is_eof T E l0 debug r c R) as (a & r' & c' & _ & _ & K3 & _ & K5).
  unfold peof. rewrite pread_st. exists r', c'.
  destruct (char_at T E l0 (c_pos c)) as [o|e| |]; try contradiction.
  - destruct K5 as (K5 & ->). auto.
  - destruct K5 as (K5 & m & ->). cbn. split; [exact K5|]. split; [exact K3|]. split; [reflexivity|]. apply am_skip. exact O.
Qed.
Lemma simc_peek : forall ctx n, simc ctx ctx (m_peek debug n) (ppeek E n).
Proof.
  intros ctx n r c R O. destruct (rep_peek T E l0 debug n r c R) as (a & r' & c' & _ & _ & K3 & _ & K5).
  unfold ppeek, back. rewrite ppeek_loop_st. exists r', c'.
  destruct (p_peek_spec T E l0 n _ (rep_bound _ _ _ _ _ R)) as [(S1 & S2)|(e & S1 & S2 & S3)].
  - rewrite S2 in *. cbn [fst snd] in *. destruct K5 as (K5 & -> & _). auto.
  - rewrite S3 in *. cbn [fst snd] in *. destruct K5 as (K5 & m & ->). split; [exact K5|]. split; [exact K3|].
    split; [reflexivity|]. apply am_skip. exact O.
Qed.
Lemma simc_stream_prefix : forall ctx, simc ctx ctx (stream_prefix debug) (pstream_prefix E).
Proof.
  intros ctx. unfold stream_prefix, pstream_prefix. apply simc_seq; [apply simc_is_eof|]. intros [|]; [apply simc_ret|].
  apply simc_seq; [apply simc_peek|]. intros p. apply simc_ret.
Qed.
Lemma simc_err_expected : forall ctx g i, simc ctx ctx (err_expected debug g i) (perr_expected E g i).
Proof.
  intros ctx g i. unfold err_expected, perr_expected. apply simc_seq; [apply simc_location|]. intros l r c R O.
  destruct (simc_stream_prefix ctx r c R O) as (r' & c' & K1 & K2 & K3 & K4). rewrite K1.
  destruct (pstream_prefix E (st (c_pos c))) as (x & s). cbn [fst snd] in *. subst s. exists r', c'.
  destruct x; cbn; auto.
Qed.
Lemma simc_prefix : forall ctx w, simc ctx ctx (m_prefix_matches debug w) (pprefix E w).
Proof.
  intros ctx w r c R O. destruct (rep_prefix T E l0 debug w r c R) as (a & r' & c' & _ & _ & K3 & _ & K5).
  unfold pprefix, back. rewrite pprefix_loop_st. exists r', c'.
  destruct (p_prefix_spec T E l0 w _ (rep_bound _ _ _ _ _ R)) as [(z & S1 & S2)|[(q & S0 & S1 & S2 & S3)|(e & y & s' & S1 & S2 & S3)]].
  - rewrite S2 in *. cbn [fst snd] in *. destruct K5 as (K5 & -> & _). auto.
  - rewrite S1 in *. cbn [fst snd] in *. destruct K5 as (K5 & -> & _). auto.
  - rewrite S3 in *. cbn [fst snd] in *. destruct K5 as (K5 & m & ->). split; [exact K5|]. split; [exact K3|].
    split; [reflexivity|]. apply am_skip. exact O.
Qed.
Lemma simc_skip_any : forall ctx n, ctx <> [] -> simc ctx ctx (m_skip debug n) (pskip_any E n).
Proof.
  intros ctx n Hc r c R O. pose proof (among_ne _ _ O Hc) as Hm. pose proof (safe_marks _ _ _ debug _ _ R Hm) as Hs.
  unfold pskip_any, pbind. rewrite ppeek_loop_st.
  destruct (p_peek_spec T E l0 n _ (rep_bound _ _ _ _ _ R)) as [(S1 & S2)|(e & S1 & S2 & S3)];
    destruct (rep_skip T E l0 debug n r c R) as [(r' & K1 & K2 & K3 & _)|[(e' & r' & K1 & K2 & K3 & K4 & _)|(r' & _ & K2)]].
  - rewrite S2. cbn [fst snd pret]. exists r'. eexists. rewrite firstn_length. split; [exact K1|]. split; [exact K3|]. cbn. auto.
  - exfalso. destruct S1 as [S1|S1]; [congruence|lia].
  - contradiction.
  - exfalso. destruct K2 as [K2|K2]; [congruence|lia].
  - rewrite S3. cbn [fst snd pret]. exists r'. eexists. split; [rewrite K1; congruence|]. split; [exact K4|]. cbn. auto.
  - contradiction.
Qed.
Lemma skipn_map_cons : forall {A B} (f : A -> B) i l, skipn i (map f l) = map f (skipn i l).
Proof. intros A B f i. induction i as [|i IH]; intros [|x l]; cbn; auto. Qed.
Lemma among_skipn : forall {A} i (l : list A), among (skipn i l) l.
Proof. intros A i. induction i as [|i IH]; intros [|x l]; cbn; try apply among_refl. apply am_skip. apply IH. Qed.
Lemma among_app : forall {A} (c a b : list A), among a b -> among (a ++ c) (b ++ c).
Proof.
  intros A c a b H. induction H as [l|x a b H IH|x a b H IH]; cbn; [|apply am_skip; exact IH|apply am_keep; exact IH].
  induction l as [|y l IH]; cbn; [apply among_refl|apply am_skip; exact IH].
Qed.
Lemma among_right : forall {A} (o c : list A), among c (o ++ c).
Proof. intros A o c. exact (among_app c [] o (am_nil _)). Qed.
(** The marks [o] are the program's own; [base] are those it was called with. *)
Lemma simc_sprog_own : forall p o base, base <> [] -> Forall (fun x => snd x <= length T) o ->
  simc (o ++ base) base (run_sprog debug p (map fst o)) (prun_sprog E p (map (fun x => st (snd x)) o)).
Proof.
  assert (Hne : forall (o base : list (N * nat)), base <> [] -> o ++ base <> []).
  { intros o base Hb H. apply app_eq_nil in H. tauto. }
  assert (Hsub : forall (o base : list (N * nat)), among base (o ++ base)) by (intros; apply among_right).
  induction p as [r|e|k IH|k IH|k IH|w k IH|n k IH|n k IH|k IH|i k IH|i k IH]; intros o base Hb Ho; cbn [run_sprog prun_sprog].
  - eapply simc_weak; [apply among_refl|apply Hsub|apply simc_ret].
  - eapply simc_weak; [apply among_refl|apply Hsub|apply simc_fail].
  - eapply simc_bind; [apply Hsub|apply simc_read; auto|]. intros a. apply IH; auto.
  - eapply simc_bind; [apply Hsub|apply simc_location|]. intros a. apply IH; auto.
  - eapply simc_bind; [apply Hsub|apply simc_is_eof|]. intros a. apply IH; auto.
  - eapply simc_bind; [apply Hsub|apply simc_prefix|]. intros a. apply IH; auto.
  - eapply simc_bind; [apply Hsub|apply simc_peek|]. intros a. apply IH; auto.
  - eapply simc_bind; [apply Hsub|apply simc_skip_any; auto|]. intros a. apply IH; auto.
  - apply simc_mark. intros m q Hq. apply (IH ((m, q) :: o)); auto.
  - rewrite !skipn_map_cons. pose proof (among_skipn i o) as Hs. destruct (skipn i o) as [|(m & q) older] eqn:Ei; cbn [map fst snd]; [apply IH; auto|].
    assert (Hq : q <= length T /\ Forall (fun x => snd x <= length T) older).
    { pose proof Ho as Ho2. rewrite <- (firstn_skipn i o), Ei in Ho2. apply Forall_app in Ho2 as (_ & Ho2). split; [exact (Forall_inv Ho2)|exact (Forall_inv_tail Ho2)]. }
    destruct Hq as (Hq & Hold). intros r c R O.
    destruct (reset_known (older ++ base) m q r c R) as (n & r1 & c1 & K1 & K2 & K3 & K4 & K5).
    { eapply among_trans; [exact O|]. exact (among_app base _ _ Hs). }
    rewrite (mbind_ok _ _ _ _ _ K1), (pbind_ok pget _ _ _ _ eq_refl). unfold pbind at 1, pput.
    replace (length (p_rest (st q)) - length (p_rest (st (c_pos c)))) with n.
    2:{ unfold st. cbn [p_rest]. rewrite !skipn_length. pose proof (rep_bound _ _ _ _ _ R). lia. }
    rewrite <- K3. apply (IH n older base Hb Hold r1 c1 K2 K4).
  - rewrite !skipn_map_cons. pose proof (among_skipn i o) as Hs. destruct (skipn i o) as [|(m & q) older] eqn:Ei; cbn [map fst snd]; [apply IH; auto|].
    eapply (simc_weak ((m, q) :: older ++ base)); [exact (among_app base _ _ Hs)|apply among_refl|].
    apply simc_unmark. apply IH; [exact Hb|].
    pose proof Ho as Ho2. rewrite <- (firstn_skipn i o), Ei in Ho2. apply Forall_app in Ho2 as (_ & Ho2). exact (Forall_inv_tail Ho2).
Qed.
Lemma simc_sprog : forall p ctx, ctx <> [] -> simc ctx ctx (run_sprog debug p []) (prun_sprog E p []).
Proof. intros p ctx Hc. exact (simc_sprog_own p [] ctx Hc (Forall_nil _)). Qed.
Lemma simc_chars_loop : forall fuel pred max n ctx, simc ctx ctx (chars_loop debug fuel pred max n) (pchars_loop E fuel pred max n).
Proof.
  induction fuel as [|f IH]; intros pred max n ctx; [apply simc_no_fuel|]. cbn [chars_loop pchars_loop].
  destruct (match max with Some m => N.ltb n m | None => true end); [|apply simc_ret].
  apply simc_mark. intros m q Hq. eapply simc_bind; [|apply simc_read; discriminate|].
  { apply am_skip. apply among_refl. }
  intros [c|].
  - destruct (negb (pred c)).
    + apply simc_reset; [exact Hq|]. intros _. apply simc_ret.
    + apply simc_unmark. apply simc_seq; [apply IH|]. intros rest. apply simc_ret.
  - eapply simc_weak; [| |apply simc_ret]; [apply among_refl|apply am_skip; apply among_refl].
Qed.
Lemma among_drop : forall {A} (x : A) l, among l (x :: l).
Proof. intros. apply am_skip. apply among_refl. Qed.
Lemma simc_chars_scan : forall fuel pred min max def ctx, simc ctx ctx (chars_scan debug fuel pred min max def) (pchars_scan E fuel pred min max def).
Proof.
  intros fuel pred min max def ctx. unfold chars_scan, pchars_scan. apply simc_mark. intros m q Hq.
  eapply simc_bind; [apply among_drop|apply simc_location|]. intros loc.
  eapply simc_bind; [apply among_drop|apply simc_chars_loop|]. intros buf.
  destruct (match min with Some m0 => _ | None => false end).
  - apply simc_reset; [exact Hq|]. intros _. apply simc_ret.
  - eapply simc_weak; [apply among_refl|apply among_drop|apply simc_ret].
Qed.
Lemma ppeek_ok : forall n s x s', ppeek E n s = (Ok x, s') -> s' = s /\ x = firstn n (p_rest s).
Proof.
  intros n s x s'. unfold ppeek, back.
  enough (H : forall n s x s', ppeek_loop E n s = (Ok x, s') -> x = firstn n (p_rest s)).
  { destruct (ppeek_loop E n s) as ([y| | |] & s1) eqn:Ep; intros [= <- <-]. split; [reflexivity|]. eapply H. exact Ep. }
  clear. induction n as [|n IH]; intros s x s' H; cbn in H; [injection H as <- _; reflexivity|].
  unfold pbind, pread, pret in H. destruct (p_rest s) as [|c r] eqn:Es.
  - destruct E; [discriminate|]. injection H as <- _. reflexivity.
  - destruct (ppeek_loop E n (move 1 s)) as ([y| | |] & s1) eqn:Ep; try discriminate. injection H as <- _.
    cbn. f_equal. rewrite (IH _ _ _ Ep). unfold move. cbn [p_rest]. rewrite Es. reflexivity.
Qed.
(** Skipping characters that are there. *)
Lemma skip_there : forall n r c, rep r c -> n <= length (skipn (c_pos c) T) -> safe debug (mr_ub r) \/ n = 0 ->
  exists k r', m_skip debug n r = (Ok k, r') /\ rep r' (Cur (c_pos c + n) (c_marks c)).
Proof.
  intros n r c R Hn Hs. destruct (Nat.eq_dec n 0) as [->|Hz].
  { exists 0, r. rewrite Nat.add_0_r. destruct c. auto. }
  destruct (rep_skip T E l0 debug n r c R) as [(r' & K1 & _ & K2 & _)|[(e & r' & K1 & K2 & K3 & _)|(r' & K1 & K2)]].
  - rewrite Nat.min_l in K2 by exact Hn. eauto.
  - lia.
  - destruct Hs; contradiction.
Qed.
Lemma simc_regex_scan : forall find def ctx, ctx <> [] -> simc ctx ctx (regex_scan debug find def) (pregex_scan E find def).
Proof.
  intros find def ctx Hc. unfold regex_scan, pregex_scan. apply simc_seq; [apply simc_location|]. intros loc r c R O.
  destruct (simc_peek ctx (S regex_max) r c R O) as (r1 & c1 & K1 & K2 & K3 & K4). 
  destruct (ppeek E (S regex_max) (st (c_pos c))) as (x & s1) eqn:Ep. cbn [fst snd] in K1, K3. subst s1.
  destruct x as [tok|e|p|].
  2:{ rewrite (mbind_err _ _ _ _ _ K1), (pbind_err _ _ _ _ _ Ep). exists r1, c1. auto. }
  2:{ rewrite (mbind_panic _ _ _ _ _ K1), (pbind_panic _ _ _ _ _ Ep). exists r1, c1. auto. }
  2:{ rewrite (mbind_fuel _ _ _ _ K1), (pbind_fuel _ _ _ _ Ep). exists r1, c1. auto. }
  rewrite (mbind_ok _ _ _ _ _ K1), (pbind_ok _ _ _ _ _ Ep).
  apply ppeek_ok in Ep as (Ep & Ht).
  assert (G : forall {A} (m : M A) f, simc ctx ctx m f -> exists r' c', m r1 = (fst (f (st (c_pos c1))), r') /\ rep r' c' /\
    snd (f (st (c_pos c1))) = st (c_pos c') /\ among ctx (c_marks c')) by (intros A m f S; exact (S r1 c1 K2 K4)).
  destruct (find tok) as [([|k] & len)|]; try (apply G; apply simc_ret).
  set (w := firstn len tok). destruct (Nat.ltb regex_max (length w)).
  { apply G. apply simc_seq; [apply simc_location|]. intros l. apply simc_fail. }
  assert (Hw : length w <= length (skipn (c_pos c1) T)).
  { unfold w. rewrite Ht, firstn_length, firstn_length. replace (p_rest (st (c_pos c))) with (skipn (c_pos c1) T) by (rewrite <- Ep; reflexivity). lia. }
  destruct (skip_there _ r1 c1 K2 Hw (or_introl (safe_marks _ _ _ _ _ _ K2 (among_ne _ _ K4 Hc)))) as (n & r2 & J1 & J2).
  rewrite (mbind_ok _ _ _ _ _ J1). unfold pbind, pskip, pret. rewrite st_move by exact Hw. cbn [fst snd].
  eexists _, _. split; [reflexivity|]. split; [exact J2|]. auto.
Qed.
Lemma simc_special_scan : forall fuel sc def ctx, ctx <> [] -> simc ctx ctx (special_scan debug fuel sc def) (pspecial_scan E fuel sc def).
Proof.
  intros fuel [nm|pred mn mx|nm find|nm prog] def ctx Hc; cbn.
  - apply simc_ret.
  - apply simc_chars_scan.
  - apply simc_regex_scan. exact Hc.
  - apply simc_sprog. exact Hc.
Qed.
Lemma simc_terminal : forall g addr ins s events ctx, simc ctx ctx (terminal_step debug g addr ins s events) (pterminal_step g E addr ins s events).
Proof.
  intros g addr ins s events ctx r c R O. unfold terminal_step, pterminal_step.
  destruct (rep_prefix T E l0 debug s r c R) as (a & r1 & c1 & _ & _ & K3 & _ & K5).
  assert (G : forall {A} (m : M A) f c2, rep r1 c2 -> among ctx (c_marks c2) -> simc ctx ctx m f -> exists r' c', m r1 = (fst (f (st (c_pos c2))), r') /\ rep r' c' /\
    snd (f (st (c_pos c2))) = st (c_pos c') /\ among ctx (c_marks c')) by (intros A m f c2 R2 O2 S; exact (S r1 c2 R2 O2)).
  assert (Hp : pprefix E s (st (c_pos c)) = match p_prefix T E l0 s (c_pos c) with (Ok b, _) => (Ok b, st (c_pos c)) | (x, q) => (x, st q) end).
  { unfold pprefix, back. rewrite pprefix_loop_st. destruct (p_prefix T E l0 s (c_pos c)) as ([]&?); reflexivity. }
  destruct (p_prefix_spec T E l0 s _ (rep_bound _ _ _ _ _ R)) as [(w & S1 & S2)|[(q & S0 & S1 & S2 & S3)|(e & y & s' & S1 & S2 & S3)]].
  - rewrite S2 in *. cbn [fst snd] in *. destruct K5 as (K5 & -> & K6). rewrite (mbind_ok _ _ _ _ _ K5), (pbind_ok _ _ _ _ _ Hp).
    unfold m_location. unfold mbind at 1. destruct (K3) as (b & K3'). rewrite (rp_loc _ _ _ _ _ _ K3').
    assert (Hs : length s <= length (skipn (c_pos c) T)) by (rewrite S1, app_length; lia).
    destruct (skip_there (length s) r1 c K3 Hs) as (n & r2 & J1 & J2).
    { destruct s; [right; reflexivity|left; apply K6; [reflexivity|discriminate]]. }
    rewrite (mbind_ok _ _ _ _ _ J1). unfold pbind, ploc, pskip, pret. rewrite st_move by exact Hs. cbn [fst snd].
    eexists _, _. split; [reflexivity|]. split; [exact J2|]. auto.
  - rewrite S1 in *. cbn [fst snd] in *. destruct K5 as (K5 & -> & K6). rewrite (mbind_ok _ _ _ _ _ K5), (pbind_ok _ _ _ _ _ Hp).
    apply G; auto. apply simc_seq; [apply simc_err_expected|]. intros x. apply simc_ret.
  - rewrite S3 in *. cbn [fst snd] in *. destruct K5 as (K5 & m & ->). rewrite (mbind_err _ _ _ _ _ K5), (pbind_err _ _ _ _ _ Hp).
    eexists _, _. split; [reflexivity|]. split; [exact K3|]. split; [reflexivity|]. apply am_skip. exact O.
Qed.
(** [sub] against its pure counterpart. *)
Lemma simc_rep_loop : forall ctx (sub : list event -> M (prospect * list event)) psub fuel mn mx i temp,
  (forall ctx evs, simc ctx ctx (sub evs) (psub evs)) ->
  simc ctx ctx (rep_loop debug sub fuel mn mx i temp) (prep_loop psub fuel mn mx i temp).
Proof.
  intros ctx sub psub fuel mn mx i temp Hs. revert i temp. induction fuel as [|f IH]; intros i temp; [apply simc_no_fuel|].
  cbn [rep_loop prep_loop]. destruct (N.ltb i mx); [|apply simc_ret].
  intros r c R O. unfold mbind at 1, m_location. 
  assert (L : ub_loc (mr_ub r) = p_at (st (c_pos c))). { destruct R as (b & R). rewrite (rp_loc _ _ _ _ _ _ R). reflexivity. }
  revert r c R O L. 
  enough (H : forall loc, simc ctx ctx (let! mark := m_mark debug in let! (p, temp0) := sub temp in match p with
     | Proceed => let! loc' := m_location in if ((mx =? u32_max)%N && loc_eqb loc' loc)%bool then fail (Error_ loc MLivelock) else rep_loop debug sub f mn mx (i + 1)%N temp0
     | NotThisWay e => if (i <? mn)%N then ret (inl e) else let! _ := m_reset mark in ret (inr temp0) end)
     (letp s := pget in letp (p, temp0) := psub temp in match p with
     | Proceed => letp loc' := ploc in if ((mx =? u32_max)%N && loc_eqb loc' loc)%bool then pfail (Error_ loc MLivelock) else prep_loop psub f mn mx (i + 1)%N temp0
     | NotThisWay e => if (i <? mn)%N then pret (inl e) else letp _ := pput s in pret (inr temp0) end)).
  { intros r c R O L. destruct (H (ub_loc (mr_ub r)) r c R O) as (r' & c' & K). exists r', c'.
    unfold pbind at 1, pget. cbv beta iota. unfold pbind at 1, pget in K. cbv beta iota in K. rewrite L in *. exact K. }
  intros loc. apply simc_mark. intros m q Hq. eapply simc_bind; [apply among_drop|apply Hs|]. intros ([|e] & temp0).
  - eapply simc_weak; [apply among_drop|apply among_refl|]. apply simc_seq; [apply simc_location|]. intros loc'.
    destruct ((mx =? u32_max)%N && loc_eqb loc' loc)%bool; [apply simc_fail|apply IH].
  - destruct (N.ltb i mn).
    + eapply simc_weak; [apply among_drop|apply among_refl|]. apply simc_ret.
    + apply simc_reset; [exact Hq|]. intros _. apply simc_ret.
Qed.
Lemma simc_or_loop : forall ctx (sub : nat -> M (prospect * list event)) psub subs,
  (forall ctx a, simc ctx ctx (sub a) (psub a)) ->
  simc ctx ctx (or_loop debug sub subs) (por_loop psub subs).
Proof.
  intros ctx sub psub subs Hs. induction subs as [|a subs IH]; cbn [or_loop por_loop]; [apply simc_ret|].
  apply simc_mark. intros m q Hq. eapply simc_bind; [apply among_drop|apply Hs|]. intros ([|e] & temp).
  - eapply simc_weak; [apply among_drop|apply among_refl|]. apply simc_ret.
  - apply simc_reset; [exact Hq|]. intros _. apply simc_seq; [exact IH|]. intros o. apply simc_ret.
Qed.
Lemma simc_special_step : forall ctx g sub psub fuel addr ins sc events,
  (forall ctx a evs, simc ctx ctx (sub a evs) (psub a evs)) ->
  simc ctx ctx (special_step debug g sub fuel addr ins sc events) (pspecial_step g psub E fuel addr ins sc events).
Proof.
  intros ctx g sub psub fuel addr ins sc events Hs. unfold special_step, pspecial_step. apply simc_mark. intros m q Hq.
  eapply simc_bind; [apply among_drop|apply simc_special_scan; discriminate|]. intros [evts| |id].
  - apply simc_unmark. apply simc_ret.
  - apply simc_reset; [exact Hq|]. intros _. apply simc_seq; [apply simc_err_expected|]. intros e. apply simc_ret.
  - destruct (g_label g id) as [next|].
    + apply simc_unmark. apply simc_seq; [apply Hs|]. intros (p & ev). apply simc_ret.
    + apply simc_reset; [exact Hq|]. intros _. apply simc_seq; [apply simc_location|]. intros l. apply simc_fail.
Qed.
(** The capture loop captures exactly what the factor matched. *)
Lemma loc_before : forall p q, p < q -> q <= length T ->
  ((l_lines (loc_at p) <? l_lines (loc_at q))%N || (l_columns (loc_at p) <? l_columns (loc_at q))%N)%bool = true.
Proof.
  intros p q H Hq.
  assert (L : loc_cmp (loc_at p) (loc_at q) = Lt).
  { replace q with (p + length (firstn (q - p) (skipn p T))) by (rewrite firstn_length, skipn_length; lia).
    rewrite (loc_at_add T l0 p _ (skipn (q - p) (skipn p T))) by (symmetry; apply firstn_skipn).
    apply loc_cmp_push. intros Z. apply (f_equal (@length _)) in Z. rewrite firstn_length, skipn_length in Z. cbn in Z. lia. }
  unfold loc_cmp in L. unfold IoFacts.loc_at in *. rewrite !push_str_name, str_eqb_refl in L. cbn [negb] in L.
  set (a := loc_push_str l0 (firstn p T)) in *. set (b := loc_push_str l0 (firstn q T)) in *.
  apply orb_true_iff. destruct (N.ltb (l_lines a) (l_lines b)); [left; reflexivity|].
  destruct (N.ltb (l_lines b) (l_lines a)); [discriminate|]. right.
  destruct (N.ltb (l_columns a) (l_columns b)); [reflexivity|]. destruct (N.ltb (l_columns b) (l_columns a)); discriminate.
Qed.
Lemma capture_ok : forall fuel q r c, rep r c -> c_marks c <> [] -> c_pos c <= q -> q <= length T ->
  exists r' c', rep r' c' /\ c_marks c' = c_marks c /\
   c_pos c' = (if Nat.ltb (q - c_pos c) fuel then q else c_pos c + fuel) /\
   capture_loop debug fuel (loc_at q) r =
     (if Nat.ltb (q - c_pos c) fuel then Ok (firstn (q - c_pos c) (skipn (c_pos c) T)) else OutOfFuel, r').
Proof.
  induction fuel as [|f IH]; intros q r c R Hm Hp Hq.
  { exists r, c. split; auto. split; auto. split; [apply eq_sym, Nat.add_0_r|reflexivity]. }
  cbn [capture_loop]. assert (L : m_location r = (Ok (loc_at (c_pos c)), r)).
  { destruct R as (b & R). unfold m_location. rewrite (rp_loc _ _ _ _ _ _ R). reflexivity. }
  rewrite (mbind_ok _ _ _ _ _ L).
  destruct (Nat.eq_dec (c_pos c) q) as [He|He].
  - rewrite He. rewrite !N.ltb_irrefl. cbn [orb]. rewrite Nat.sub_diag. cbn. exists r, c. repeat (split; auto).
  - rewrite loc_before by lia.
    destruct (rep_read1 T E l0 debug r c R (safe_marks _ _ _ _ _ _ R Hm)) as (r1 & K1 & K2 & _).
    destruct (skipn (c_pos c) T) as [|x rest] eqn:Es.
    { apply skipn_nil_len in Es; [|lia]. lia. }
    unfold char_at in K1, K2. rewrite Es in K1, K2. cbv beta iota in K2.
    rewrite (mbind_ok _ _ _ _ _ K1).
    destruct (IH q r1 _ K2 Hm) as (r2 & c2 & J1 & J2 & J3 & J4); cbn [c_pos c_marks] in *; [lia|exact Hq|].
    exists r2, c2. split; [exact J1|]. split; [exact J2|].
    assert (Hsub : q - c_pos c = S (q - (c_pos c + 1))) by lia. rewrite Hsub.
    change (Nat.ltb (S (q - (c_pos c + 1))) (S f)) with (Nat.ltb (q - (c_pos c + 1)) f).
    split; [rewrite J3; destruct (Nat.ltb (q - (c_pos c + 1)) f); [reflexivity|lia]|]. unfold mbind. rewrite J4. destruct (Nat.ltb (q - (c_pos c + 1)) f); [|reflexivity].
    cbn. do 3 f_equal. rewrite Nat.add_1_r. rewrite (skipn_cons _ _ _ _ Es). reflexivity.
Qed.
Lemma st_inj : forall p q, p <= length T -> q <= length T -> st p = st q -> p = q.
Proof.
  intros p q Hp Hq H. injection H as H _. apply (f_equal (@length _)) in H. rewrite !skipn_length in H. lia.
Qed.
Lemma between_st : forall p q, p <= q -> q <= length T -> between (st p) (st q) = firstn (q - p) (skipn p T).
Proof. intros p q H Hq. unfold between, st. cbn [p_rest]. rewrite !skipn_length. f_equal. lia. Qed.
Lemma mark_below : forall m q ctx r c, rep r c -> among ((m, q) :: ctx) (c_marks c) -> q <= c_pos c.
Proof.
  intros m q ctx r c (b & R) O. pose proof (among_in _ _ O _ (or_introl eq_refl)) as Hin.
  pose proof (rp_marks _ _ _ _ _ _ R) as F. rewrite Forall_forall in F. destruct (F _ Hin) as (_ & H & _). exact H.
Qed.
End Sim.

Lemma sim_test : forall debug l0 buffer (sub : M (prospect * list event)) psub,
  (forall ctx, simc buffer None l0 ctx ctx sub psub) ->
  fst ((let! (p, _) := sub in match p with Proceed => m_is_eof debug | NotThisWay _ => ret false end) (mr_of_text l0 buffer)) =
  fst ((letp (p, _) := psub in match p with Proceed => peof None | NotThisWay _ => pret false end) (Pst buffer l0)).
Proof.
  intros debug l0 buffer sub psub Hs.
  assert (S : simc buffer None l0 [] [] (let! (p, _) := sub in match p with Proceed => m_is_eof debug | NotThisWay _ => ret false end)
     (letp (p, _) := psub in match p with Proceed => peof None | NotThisWay _ => pret false end)).
  { apply simc_seq; [apply Hs|]. intros ([|e] & t); [apply simc_is_eof|apply simc_ret]. }
  pose proof (rep_new l0 [buffer] None) as R. cbn [concat] in R. rewrite app_nil_r in R.
  destruct (S _ _ R (am_nil _)) as (r' & c' & K & _). unfold mr_of_text. rewrite K. reflexivity.
Qed.
Lemma simc_except : forall debug g sub psub fuel addr factor exc events,
  (forall T E l0 ctx a evs, simc T E l0 ctx ctx (sub a evs) (psub E a evs)) ->
  forall T E l0 ctx, simc T E l0 ctx ctx (except_scan debug g sub fuel addr factor exc events) (pexcept_scan g psub E fuel addr factor exc events).
Proof.
  intros debug g sub psub fuel addr factor exc events Hs T E l0 ctx r c R O. unfold except_scan, pexcept_scan.
  assert (L : m_location r = (Ok (p_at (st T l0 (c_pos c))), r)).
  { destruct R as (b & R). unfold m_location. rewrite (rp_loc _ _ _ _ _ _ R). reflexivity. }
  rewrite (mbind_ok _ _ _ _ _ L). set (begin := p_at (st T l0 (c_pos c))).
  assert (Hb : begin = p_at (st T l0 (c_pos c))) by reflexivity. clearbody begin. clear L. revert r c R O Hb.
  (* the rest of the program, from any state at this place *)
  enough (H : forall q, q <= length T -> begin = p_at (st T l0 q) -> forall m, simc T E l0 ((m, q) :: ctx) ctx
    (let! (p, temp) := sub factor [] in
      match p with
      | Proceed =>
          let! end_ := m_location in
          let! _ := m_reset m in
          let! mark := m_mark debug in
          let! buffer := capture_loop debug fuel end_ in
          let! l := m_location in
          if (debug && negb (loc_eqb end_ l))%bool then crash PDebugAssert
          else
            let test := (let! (p, _) := sub exc [] in match p with Proceed => m_is_eof debug | NotThisWay _ => ret false end) (mr_of_text begin buffer) in
            match fst test with
            | Ok true => let! _ := m_reset mark in let! e := err_expected debug g (Some addr) in ret (NotThisWay e, events)
            | Ok false => ret (Proceed, events ++ temp)
            | Err e => fail e
            | Panic x => crash x
            | OutOfFuel => no_fuel
            end
      | NotThisWay e => let! _ := m_reset m in ret (NotThisWay e, events)
      end)
    ((fun s => letp (p, temp) := psub E factor [] in
      match p with
      | NotThisWay e => letp _ := pput s in pret (NotThisWay e, events)
      | Proceed =>
          letp s' := pget in
          let buffer := between s s' in
          if Nat.ltb (length buffer) fuel then
            let test := (letp (p, _) := psub None exc [] in match p with Proceed => peof None | NotThisWay _ => pret false end) (Pst buffer (p_at s)) in
            match fst test with
            | Ok true => letp _ := pput s in letp e := perr_expected E g (Some addr) in pret (NotThisWay e, events)
            | Ok false => pret (Proceed, events ++ temp)
            | Err e => pfail e
            | Panic x => pcrash x
            | OutOfFuel => pno_fuel
            end
          else fun _ => (OutOfFuel, move fuel s)
      end) (st T l0 q))).
  { intros r c R O Hb.
    destruct (rep_mark' T E l0 debug r c R) as (m & r1 & K1 & K2 & K3 & K4).
    rewrite (mbind_ok _ _ _ _ _ K1). apply (H (c_pos c) (rep_bound _ _ _ _ _ R) Hb m r1 _ K3). cbn. apply am_keep. exact O. }
  intros q Hq Hb m. cbv beta. eapply simc_bind; [apply among_drop|apply Hs|]. intros ([|e] & temp).
  2:{ apply simc_reset; [exact Hq|]. intros _. apply simc_ret. }
  intros r c R O.
  assert (L : m_location r = (Ok (IoFacts.loc_at T l0 (c_pos c)), r)).
  { destruct R as (b & R). unfold m_location. rewrite (rp_loc _ _ _ _ _ _ R). reflexivity. }
  rewrite (mbind_ok _ _ _ _ _ L).
  assert (Lq : q <= c_pos c) by (eapply mark_below; eauto).
  destruct (reset_known _ _ _ _ _ _ _ _ R O) as (n & r1 & c1 & K1 & K2 & K3 & K4 & _). rewrite (mbind_ok _ _ _ _ _ K1).
  destruct (rep_mark' T E l0 debug r1 c1 K2) as (m2 & r2 & J1 & J2 & J3 & _). rewrite (mbind_ok _ _ _ _ _ J1). rewrite K3 in J3.
  destruct (capture_ok debug T E l0 fuel (c_pos c) r2 _ J3 ltac:(discriminate) Lq (rep_bound _ _ _ _ _ R)) as (r3 & c3 & I1 & I2 & I3 & I4).
  cbn [c_pos c_marks] in I2, I3, I4.
  rewrite (pbind_ok pget _ (st T l0 (c_pos c)) _ _ eq_refl). cbv zeta. rewrite between_st by (auto; apply (rep_bound _ _ _ _ _ R)).
  set (buf := firstn (c_pos c - q) (skipn q T)) in *.
  assert (Hlen : length buf = c_pos c - q). { unfold buf. rewrite firstn_length, skipn_length. pose proof (rep_bound _ _ _ _ _ R). lia. }
  rewrite Hlen. pose proof (rep_bound _ _ _ _ _ R) as Hbd. destruct (Nat.ltb_spec (c_pos c - q) fuel) as [Hf|Hf].
  2:{ rewrite (mbind_fuel _ _ _ _ I4). cbn [fst snd]. exists r3, c3. split; [reflexivity|]. split; [exact I1|].
      rewrite I3, I2. split; [|apply am_skip; exact K4]. apply st_move. rewrite skipn_length. lia. }
  rewrite (mbind_ok _ _ _ _ _ I4).
  assert (L3 : m_location r3 = (Ok (IoFacts.loc_at T l0 (c_pos c)), r3)).
  { rewrite <- I3. destruct I1 as (b & I1). unfold m_location. rewrite (rp_loc _ _ _ _ _ _ I1). reflexivity. }
  rewrite (mbind_ok _ _ _ _ _ L3), loc_eqb_refl, andb_false_r.
  rewrite (sim_test debug begin buf (sub exc []) (psub None exc [])) by (intros; apply Hs). rewrite Hb.
  assert (G : forall {A} (mm : M A) f, simc T E l0 ((m2, q) :: ctx) ctx mm f -> exists r' c', mm r3 = (fst (f (st T l0 (c_pos c))), r') /\ rep T E l0 r' c' /\
    snd (f (st T l0 (c_pos c))) = st T l0 (c_pos c') /\ among ctx (c_marks c')).
  { intros A mm f S. rewrite <- I3. apply S; [exact I1|]. rewrite I2. apply am_keep. exact K4. }
  match goal with |- context [fst ?x] => destruct (fst x) as [[|]|e|x1|] eqn:Et end.
  all: try rewrite Et.
  - apply G. apply simc_reset; [exact Hq|]. intros _. apply simc_seq; [apply simc_err_expected|]. intros e. apply simc_ret.
  - apply G. eapply simc_weak; [apply among_drop|apply among_refl|apply simc_ret].
  - apply G. eapply simc_weak; [apply among_drop|apply among_refl|apply simc_fail].
  - apply G. eapply simc_weak; [apply among_drop|apply among_refl|apply simc_crash].
  - apply G. eapply simc_weak; [apply among_drop|apply among_refl|apply simc_no_fuel].
Qed.

(** The whole machine. *)
Theorem simc_run : forall debug g fuel T E l0 ctx next events,
  simc T E l0 ctx ctx (run debug g fuel next events) (prun g fuel E next events).
Proof.
  intros debug g. induction fuel as [|f IH]; intros T E l0 ctx next events; [apply simc_no_fuel|].
  cbn [run prun]. destruct next as [addr|]; [|apply simc_ret].
  destruct (nth_error (g_instrs g) addr) as [ins|]; [|apply simc_crash].
  assert (Hc : forall ctx pe, simc T E l0 ctx ctx
     (let '(p, evs) := pe in match p with NotThisWay e => ret (NotThisWay e, evs) | Proceed => run debug g f (i_next ins) evs end)
     (let '(p, evs) := pe in match p with NotThisWay e => pret (NotThisWay e, evs) | Proceed => prun g f E (i_next ins) evs end)).
  { intros ctx' ([|e] & evs); [apply IH|apply simc_ret]. }
  destruct (i_step ins) as [mn mx s|subs|s|sc| |fa ex|id].
  - apply simc_seq; [apply simc_rep_loop; intros; apply IH|]. intros [e|temp]; [apply simc_ret|apply IH].
  - apply simc_seq; [apply simc_or_loop; intros; apply IH|]. intros [es|temp]; [|apply IH].
    destruct (pick_error (rev es)) as [err|]; [|apply simc_crash].
    apply simc_seq; [apply simc_location|]. intros l. destruct (loc_eqb (e_loc err) l); [|apply simc_ret].
    apply simc_seq; [apply simc_err_expected|]. intros e. apply simc_ret.
  - apply simc_seq; [apply simc_terminal|]. apply Hc.
  - apply simc_seq; [apply simc_special_step; intros; apply IH|]. apply Hc.
  - apply IH.
  - apply simc_seq; [apply (simc_except debug g (fun a evs => run debug g f (Some a) evs) (fun en a evs => prun g f en (Some a) evs)); intros; apply IH|]. apply Hc.
  - destruct (g_label g id) as [a|]; [|apply simc_crash]. destruct (g_canonical g id) as [nm|]; [|apply simc_crash].
    apply simc_seq; [apply simc_location|]. intros l. apply simc_seq; [apply IH|]. intros ([|e] & temp); [|apply simc_ret].
    apply simc_seq; [apply simc_location|]. intros l'. apply IH.
Qed.
Theorem simc_parse : forall debug g fuel T E l0 ctx entry,
  simc T E l0 ctx ctx (machine_parse debug g fuel entry) (pmachine_parse g debug fuel E entry).
Proof.
  intros debug g fuel T E l0 ctx entry. unfold machine_parse, pmachine_parse.
  apply simc_seq; [apply simc_run|]. intros ([|e] & events); [|apply simc_fail].
  apply simc_seq; [apply simc_is_eof|]. intros [|].
  - destruct (debug && negb (removed_labels_agree (List.tl events)))%bool; [apply simc_crash|apply simc_ret].
  - apply simc_seq; [apply simc_err_expected|]. intros e. apply simc_fail.
Qed.
(** What a parse returns, from any reader. *)
Lemma parse_pure : forall debug g fuel entry T E l0 r c, rep T E l0 r c ->
  exists r' c', machine_parse debug g fuel entry r = (fst (pmachine_parse g debug fuel E entry (st T l0 (c_pos c))), r') /\
    rep T E l0 r' c' /\ snd (pmachine_parse g debug fuel E entry (st T l0 (c_pos c))) = st T l0 (c_pos c').
Proof.
  intros debug g fuel entry T E l0 r c R. destruct (simc_parse debug g fuel T E l0 [] entry r c R (am_nil _)) as (r' & c' & K1 & K2 & K3 & _).
  exists r', c'. auto.
Qed.
