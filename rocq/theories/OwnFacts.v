(** The machine over a reader of one's own that serves a text computes what the pure machine
    computes (as PureFacts.v for the reader of the library). *)
From Coq Require Import String List NArith Arith Bool Lia.
From Verif Require Import Base Ident Tokenizer Ast Lex Syntax Io Graph Machine OwnReader SpecParse Pure SpecText SpecIo SpecOwn TextFacts TokRun IoFacts PureFacts.
Import ListNotations.
Open Scope nat_scope.

Section Sim.
Variable U : Type.
Variable debug : bool.
Variable T : str.
Variable E : option error.
Variable l0 : location.
Variable at_ : U -> cursor -> Prop.
Variable ops : methods U.
Hypothesis Hops : serves_parse U T E l0 at_ ops.
Notation act := (act U).
Notation loc_at := (loc_at T l0).
Notation st := (st T l0).
Notation orderly := (orderly T).

Definition holds (u : U) (c : cursor) : Prop := at_ u c /\ orderly c.
Lemma holds_bound : forall u c, holds u c -> c_pos c <= length T.
Proof. intros u c (_ & H & _). exact H. Qed.
Lemma orderly_push : forall c m, orderly c -> (forall p, In (m, p) (c_marks c) -> p = c_pos c) -> orderly (Cur (c_pos c) ((m, c_pos c) :: c_marks c)).
Proof.
  intros c m (H1 & H2) Hm. split; [exact H1|]. cbn [c_pos c_marks]. intros [|x newer] m1 p older E1; cbn in E1.
  - injection E1 as <- <- <-. split; [lia|]. intros m' q Hin. split; [|intros ->; auto].
    apply in_split in Hin as (a & b & Hin). apply (H2 _ _ _ _ Hin).
  - injection E1 as _ E1. exact (H2 _ _ _ _ E1).
Qed.
Lemma orderly_pop : forall c newer m p older, orderly c -> c_marks c = newer ++ (m, p) :: older -> orderly (Cur p older) /\ orderly (Cur (c_pos c) older).
Proof.
  intros c newer m p older (H1 & H2) Em. destruct (H2 _ _ _ _ Em) as (Hp & Ho). split; (split; [cbn; lia|]); cbn [c_pos c_marks].
  - intros n1 m1 p1 o1 E1. split; [apply (Ho m1); rewrite E1; apply in_elt|]. apply (H2 (newer ++ (m, p) :: n1) m1 p1 o1). rewrite Em, E1, <- app_assoc. reflexivity.
  - intros n1 m1 p1 o1 E1. apply (H2 (newer ++ (m, p) :: n1) m1 p1 o1). rewrite Em, E1, <- app_assoc. reflexivity.
Qed.
Lemma orderly_move : forall c k, orderly c -> k <= length (left_ T c) -> orderly (Cur (c_pos c + k) (c_marks c)).
Proof.
  intros c k (H1 & H2) Hk. unfold left_ in Hk. rewrite skipn_length in Hk. split; [cbn; lia|]. cbn [c_pos c_marks].
  intros n1 m1 p1 o1 E1. destruct (H2 _ _ _ _ E1) as (A & B). split; [lia|exact B].
Qed.
Lemma orderly_stopped : forall c c', orderly c -> stopped T c c' -> orderly c'.
Proof.
  intros c c' Ho (H1 & H2).
  assert (G : forall d, orderly d -> orderly (Cur (length T) (c_marks d))).
  { intros d Hd. pose proof Hd as (Hb & _). replace (length T) with (c_pos d + (length T - c_pos d)) by lia. apply orderly_move; [exact Hd|]. unfold left_. rewrite skipn_length. lia. }
  destruct c' as [p' ms']. cbn [c_pos c_marks] in *. subst p'. destruct H2 as [->|(m & -> & Hm)]; [exact (G c Ho)|].
  exact (G _ (orderly_push c m Ho Hm)).
Qed.
Lemma told : forall e x, tells_of T l0 e x -> x = fail_at T l0 (length T) e.
Proof. intros e x (l & Hl & ->). unfold fail_at. f_equal. eapply reaches_unique; [exact Hl|apply at_pos_loc]. Qed.
Lemma stopped_among : forall ctx c c', among ctx (c_marks c) -> stopped T c c' -> among ctx (c_marks c').
Proof. intros ctx c c' O (_ & [->|(m & -> & _)]); [exact O|apply am_skip; exact O]. Qed.
Lemma mark_held : forall (ms : list (N * nat)) m q, In (m, q) ms -> exists newer p older, ms = newer ++ (m, p) :: older /\ ~ In m (map fst newer).
Proof.
  induction ms as [|(m1 & q1) ms IH]; intros m q Hin; [destruct Hin|]. destruct (N.eq_dec m1 m) as [->|Hne].
  - exists [], q1, ms. split; [reflexivity|]. intros [].
  - destruct Hin as [Hin|Hin]; [congruence|]. destruct (IH _ _ Hin) as (n1 & p & o & -> & Hn). exists ((m1, q1) :: n1), p, o. split; [reflexivity|].
    intros [Z|Z]; [apply Hne; exact Z|exact (Hn Z)].
Qed.
Lemma one_place : forall c m p q, orderly c -> In (m, p) (c_marks c) -> In (m, q) (c_marks c) -> p = q.
Proof.
  intros c m p q (_ & H) H1 H2. apply in_split in H1 as (a & b & H1). rewrite H1 in H2. apply in_app_or in H2 as [H2|[H2|H2]]; [|congruence|].
  - apply in_split in H2 as (a1 & a2 & ->). rewrite <- app_assoc in H1. cbn [app] in H1. exact (proj2 (proj2 (H _ _ _ _ H1) m p (in_elt _ _ _)) eq_refl).
  - symmetry. exact (proj2 (proj2 (H _ _ _ _ H1) m q H2) eq_refl).
Qed.

(** From any state with at least the marks [ctx]: the same result, at the same place, with at
    least the marks [base] left. *)
Definition simu {A} (ctx base : list (N * nat)) (m : act A) (f : P A) : Prop :=
  forall r c, holds r c -> among ctx (c_marks c) ->
  exists r' c', m r = (fst (f (st (c_pos c))), r') /\ holds r' c' /\
    snd (f (st (c_pos c))) = st (c_pos c') /\ among base (c_marks c').
Lemma ubind_ok : forall {A B} (m : act A) (f : A -> act B) r a r', m r = (Ok a, r') -> ubind U m f r = f a r'.
Proof. intros. unfold ubind. rewrite H. reflexivity. Qed.
Lemma ubind_fuel : forall {A B} (m : act A) (f : A -> act B) r r', m r = (OutOfFuel, r') -> ubind U m f r = (OutOfFuel, r').
Proof. intros. unfold ubind. rewrite H. reflexivity. Qed.
Lemma ubind_err : forall {A B} (m : act A) (f : A -> act B) r e r', m r = (Err e, r') -> ubind U m f r = (Err e, r').
Proof. intros. unfold ubind. rewrite H. reflexivity. Qed.
Notation "'letu' x := m 'in' k" := (ubind U m (fun x => k)) (at level 200, x pattern, m at level 100, k at level 200).
Lemma simu_weak : forall {A} ctx ctx' base base' (m : act A) f, among ctx ctx' -> among base' base ->
  simu ctx base m f -> simu ctx' base' m f.
Proof.
  intros A ctx ctx' base base' m f H1 H2 S r c R O.
  destruct (S r c R (among_trans _ _ O _ H1)) as (r' & c' & K1 & K2 & K3 & K4). exists r', c'.
  split; auto. split; auto. split; auto. eapply among_trans; eauto.
Qed.
Lemma simu_ret : forall {A} base (a : A), simu base base (uret U a) (pret a).
Proof. intros A base a r c R O. exists r, c. auto. Qed.
Lemma simu_fail : forall {A} base e, simu base base (@ufail U A e) (pfail e).
Proof. intros A base a r c R O. exists r, c. auto. Qed.
Lemma simu_crash : forall {A} base e, simu base base (@ucrash U A e) (pcrash e).
Proof. intros A base a r c R O. exists r, c. auto. Qed.
Lemma simu_no_fuel : forall {A} base, simu base base (@uno_fuel U A) pno_fuel.
Proof. intros A base r c R O. exists r, c. auto. Qed.
Lemma simu_bind : forall {A B} ctx mid base (m : act A) f (k : A -> act B) h, among base mid ->
  simu ctx mid m f -> (forall a, simu mid base (k a) (h a)) -> simu ctx base (ubind U m k) (pbind f h).
Proof.
  intros A B ctx mid base m f k h Ht S1 S2 r c R O.
  destruct (S1 r c R O) as (r1 & c1 & K1 & K2 & K3 & K4). unfold ubind, pbind. rewrite K1.
  destruct (f (st (c_pos c))) as (x & s1) eqn:Ef. cbn [fst snd] in *. subst s1.
  destruct x as [a|e|p|].
  - exact (S2 a r1 c1 K2 K4).
  - exists r1, c1. split; auto. split; auto. split; auto. eapply among_trans; eauto.
  - exists r1, c1. split; auto. split; auto. split; auto. eapply among_trans; eauto.
  - exists r1, c1. split; auto. split; auto. split; auto. eapply among_trans; eauto.
Qed.
Lemma simu_seq : forall {A B} ctx (m : act A) f (k : A -> act B) h,
  simu ctx ctx m f -> (forall a, simu ctx ctx (k a) (h a)) -> simu ctx ctx (ubind U m k) (pbind f h).
Proof. intros. eapply simu_bind; eauto. apply among_refl. Qed.
Lemma own_loc : forall u c, holds u c -> u_location U ops u = loc_at (c_pos c).
Proof. intros u c (H & _). eapply reaches_unique; [exact (sp_location _ _ _ _ _ _ Hops _ _ H)|apply at_pos_loc]. Qed.
Lemma simu_location : forall base, simu base base (own_location U ops) ploc.
Proof. intros base r c R O. exists r, c. split; [|auto]. unfold own_location, ploc. rewrite (own_loc _ _ R). reflexivity. Qed.
Lemma own_mark : forall r c, holds r c -> exists m r', u_mark U ops r = (Ok m, r') /\ holds r' (Cur (c_pos c) ((m, c_pos c) :: c_marks c)).
Proof.
  intros r c (H & Ho). destruct (sp_mark _ _ _ _ _ _ Hops _ _ H) as (m & r' & K1 & K2 & K3). exists m, r'. split; [exact K1|]. split; [exact K3|]. apply orderly_push; assumption.
Qed.
Lemma simu_mark : forall {B} ctx base (k : N -> act B) h,
  (forall m q, q <= length T -> simu ((m, q) :: ctx) base (k m) (h (st q))) -> simu ctx base (ubind U (u_mark U ops) k) (pbind pget h).
Proof.
  intros B ctx base k h S r c R O. destruct (own_mark _ _ R) as (m & r1 & K1 & K3).
  rewrite (ubind_ok _ _ _ _ _ K1). apply (S m (c_pos c) (holds_bound _ _ R) r1 _ K3). cbn. apply am_keep. exact O.
Qed.
Lemma reset_held : forall ctx m q r c, holds r c -> among ((m, q) :: ctx) (c_marks c) ->
  exists n r' c', u_reset U ops m r = (Ok n, r') /\ holds r' c' /\ c_pos c' = q /\ among ctx (c_marks c') /\ q + n = c_pos c.
Proof.
  intros ctx m q r c (R & Ho) O. pose proof (among_in _ _ O _ (or_introl eq_refl)) as Hin.
  destruct (mark_held _ _ _ Hin) as (newer & p & older & Em & Hn).
  assert (Hp : p = q). { eapply one_place; [exact Ho| |exact Hin]. rewrite Em. apply in_elt. }
  destruct (sp_reset _ _ _ _ _ _ Hops _ _ _ _ _ _ R Em Hn) as (r' & K1 & K2). eexists _, r', _. split; [exact K1|].
  split; [split; [exact K2|apply (orderly_pop _ _ _ _ _ Ho Em)]|]. cbn [c_pos c_marks]. split; [exact Hp|]. split.
  - rewrite Em in O. eapply among_below; eauto.
  - destruct Ho as (_ & Ho). destruct (Ho _ _ _ _ Em) as (Hle & _). lia.
Qed.
Lemma unmark_held : forall ctx m q r c, holds r c -> among ((m, q) :: ctx) (c_marks c) ->
  exists r' c', u_unmark U ops m r = (Ok tt, r') /\ holds r' c' /\ c_pos c' = c_pos c /\ among ctx (c_marks c').
Proof.
  intros ctx m q r c (R & Ho) O. pose proof (among_in _ _ O _ (or_introl eq_refl)) as Hin.
  destruct (mark_held _ _ _ Hin) as (newer & p & older & Em & Hn).
  destruct (sp_unmark _ _ _ _ _ _ Hops _ _ _ _ _ _ R Em Hn) as (r' & K1 & K2). eexists r', _. split; [exact K1|].
  split; [split; [exact K2|apply (orderly_pop _ _ _ _ _ Ho Em)]|]. cbn [c_pos c_marks]. split; [reflexivity|].
  rewrite Em in O. eapply among_below; eauto.
Qed.
Lemma simu_reset : forall {B} ctx base m q (k : nat -> act B) h, q <= length T ->
  (forall n, simu ctx base (k n) (h tt)) -> simu ((m, q) :: ctx) base (ubind U (u_reset U ops m) k) (pbind (pput (st q)) h).
Proof.
  intros B ctx base m q k h Hq S r c R O.
  destruct (reset_held _ _ _ _ _ R O) as (n & r1 & c1 & K1 & K2 & K3 & K4 & _).
  rewrite (ubind_ok _ _ _ _ _ K1). unfold pbind, pput. rewrite <- K3. apply S; auto.
Qed.
Lemma simu_unmark : forall {B} ctx base m q (k : unit -> act B) h,
  simu ctx base (k tt) h -> simu ((m, q) :: ctx) base (ubind U (u_unmark U ops m) k) h.
Proof.
  intros B ctx base m q k h S r c R O.
  destruct (unmark_held _ _ _ _ _ R O) as (r1 & c1 & K1 & K2 & K3 & K4).
  rewrite (ubind_ok _ _ _ _ _ K1). rewrite <- K3. apply S; auto.
Qed.
Lemma own_read : forall r c, holds r c -> E = None \/ skipn (c_pos c) T <> [] -> exists r', u_read U ops r = (Ok (hd_error (skipn (c_pos c) T)), r') /\
  holds r' (Cur (c_pos c + length (firstn 1 (skipn (c_pos c) T))) (c_marks c)).
Proof.
  intros r c (R & Ho) HE. destruct (sp_read _ _ _ _ _ _ Hops _ _ R HE) as (r' & K1 & K2). exists r'. split; [exact K1|]. split; [exact K2|].
  apply (orderly_move c); [exact Ho|]. unfold left_. rewrite firstn_length. lia.
Qed.
Lemma ends : E = None \/ exists e, E = Some e. Proof. destruct E; eauto. Qed.
Lemma simu_read : forall ctx, simu ctx ctx (u_read U ops) (pread E).
Proof.
  intros ctx r c R O. rewrite pread_st.
  assert (G : E = None \/ skipn (c_pos c) T <> [] \/ exists e, E = Some e /\ skipn (c_pos c) T = []).
  { destruct ends as [HE|(e & HE)]; [now left|]. destruct (skipn (c_pos c) T); [right; right; eauto|right; left; discriminate]. }
  destruct G as [G|[G|(e & HE & Es)]].
  3:{ pose proof (skipn_nil_len _ _ Es (holds_bound _ _ R)) as Hl. destruct R as (R & Ho).
      destruct (sp_read_fail _ _ _ _ _ _ Hops _ _ e R Hl HE) as (x & r1 & K1 & K2 & K3). exists r1, c. unfold char_at. rewrite Es, HE. cbn [fst snd].
      rewrite K1, (told _ _ K2), Hl. split; [reflexivity|]. split; [split; assumption|]. auto. }
  all: destruct (own_read _ _ R ltac:(auto)) as (r1 & K1 & K2); unfold char_at; rewrite K1;
    destruct (skipn (c_pos c) T) as [|x w] eqn:Es; cbn [hd_error firstn length fst snd] in *; try contradiction; rewrite ?G; cbn [fst snd];
    (exists r1; eexists; split; [reflexivity|]; split; [exact K2|]; cbn [c_pos c_marks]; rewrite ?Nat.add_0_r, ?Nat.add_1_r; auto).
Qed.
Lemma simu_is_eof : forall ctx, simu ctx ctx (u_is_eof U ops) (peof E).
Proof.
  intros ctx r c (R & Ho) O. unfold peof. rewrite pread_st. unfold char_at.
  assert (G : (exists e, E = Some e /\ skipn (c_pos c) T = []) \/ E = None \/ skipn (c_pos c) T <> []).
  { destruct ends as [HE|(e & HE)]; [auto|]. destruct (skipn (c_pos c) T); [left; eauto|right; right; discriminate]. }
  destruct G as [(e & HE & Es)|G].
  { destruct (sp_is_eof_fail _ _ _ _ _ _ Hops _ _ e R (proj1 Ho) HE (by_eof _ Es)) as (x & r' & c' & K1 & K2 & K3 & K4). exists r', c'.
    rewrite Es, HE. cbn [fst snd]. pose proof (skipn_nil_len _ _ Es (proj1 Ho)) as Hl. rewrite K1, (told _ _ K2), <- Hl. split; [reflexivity|].
    split; [split; [exact K3|eapply orderly_stopped; eassumption]|]. split; [f_equal; rewrite Hl; symmetry; apply K4|eapply stopped_among; eassumption]. }
  destruct (sp_is_eof _ _ _ _ _ _ Hops _ _ R) as (b & r' & K1 & K2 & K3). { destruct G as [G|G]; [left; exact G|right; intros Z; inversion Z; contradiction]. }
  exists r', c. rewrite K1. unfold left_ in K2.
  assert (Eb : b = match skipn (c_pos c) T with [] => true | _ => false end).
  { destruct (skipn (c_pos c) T); [apply K2; reflexivity|]. destruct b; [|reflexivity]. discriminate (proj1 K2 eq_refl). }
  destruct (skipn (c_pos c) T); [destruct G as [->|G]; [|contradiction]|]; rewrite Eb; cbn [fst snd]; (split; [reflexivity|]; split; [split; assumption|]; auto).
Qed.
(** A peek gives the next characters and does not move, or it fails. *)
Lemma own_peek : forall n r c, holds r c ->
  (exists r', u_peek U ops n r = (Ok (firstn n (skipn (c_pos c) T)), r') /\ holds r' c /\ ppeek E n (st (c_pos c)) = (Ok (firstn n (skipn (c_pos c) T)), st (c_pos c))) \/
  (exists x r' c', u_peek U ops n r = (Err x, r') /\ holds r' c' /\ ppeek E n (st (c_pos c)) = (Err x, st (c_pos c')) /\ stopped T c c').
Proof.
  intros n r c (R & Ho). unfold ppeek, back. rewrite ppeek_loop_st.
  destruct (p_peek_spec T E l0 n (c_pos c) (proj1 Ho)) as [(S1 & S2)|(e & S1 & S2 & S3)].
  - left. destruct (sp_peek _ _ _ _ _ _ Hops _ _ n R) as (r' & K1 & K2). { destruct S1 as [S1|S1]; [now left|right; intros Z; inversion Z; unfold left_ in *; lia]. }
    exists r'. rewrite S2. split; [exact K1|]. split; [split; assumption|reflexivity].
  - right. destruct (sp_peek_fail _ _ _ _ _ _ Hops _ _ n e R (proj1 Ho) S1 (by_peek _ _ S2)) as (x & r' & c' & K1 & K2 & K3 & K4). exists x, r', c'.
    rewrite S3. cbn [fst snd]. split; [exact K1|]. split; [split; [exact K3|eapply orderly_stopped; eassumption]|]. rewrite (told _ _ K2), (proj1 K4). split; [reflexivity|exact K4].
Qed.
Lemma simu_peek : forall ctx n, simu ctx ctx (u_peek U ops n) (ppeek E n).
Proof.
  intros ctx n r c R O. destruct (own_peek n _ _ R) as [(r' & K1 & K2 & K3)|(x & r' & c' & K1 & K2 & K3 & K4)]; rewrite K3; cbn [fst snd].
  - exists r', c. auto.
  - exists r', c'. split; [exact K1|]. split; [exact K2|]. split; [reflexivity|eapply stopped_among; eassumption].
Qed.
Lemma simu_stream_prefix : forall ctx, simu ctx ctx (own_stream_prefix U ops) (pstream_prefix E).
Proof.
  intros ctx. unfold own_stream_prefix, pstream_prefix. apply simu_seq; [apply simu_is_eof|]. intros [|]; [apply simu_ret|].
  apply simu_seq; [apply simu_peek|]. intros p. apply simu_ret.
Qed.
Lemma simu_err_expected : forall ctx g i, simu ctx ctx (own_err_expected U g ops i) (perr_expected E g i).
Proof.
  intros ctx g i. unfold own_err_expected, perr_expected. apply simu_seq; [apply simu_location|]. intros l r c R O.
  destruct (simu_stream_prefix ctx r c R O) as (r' & c' & K1 & K2 & K3 & K4). rewrite K1.
  destruct (pstream_prefix E (st (c_pos c))) as (x & s). cbn [fst snd] in *. subst s. exists r', c'.
  destruct x; cbn; auto.
Qed.
Lemma own_prefix : forall w r c, holds r c ->
  (exists b r', u_prefix U ops w r = (Ok b, r') /\ holds r' c /\ (b = true <-> exists rest, skipn (c_pos c) T = w ++ rest) /\
    pprefix E w (st (c_pos c)) = (Ok b, st (c_pos c))) \/
  (exists x r' c', u_prefix U ops w r = (Err x, r') /\ holds r' c' /\ pprefix E w (st (c_pos c)) = (Err x, st (c_pos c')) /\ stopped T c c').
Proof.
  intros w r c (R & Ho). unfold pprefix, back. rewrite pprefix_loop_st.
  assert (OK : E = None \/ ~ beyond (skipn (c_pos c) T) (OPrefix w) -> forall b', fst (p_prefix T E l0 w (c_pos c)) = Ok b' -> (b' = true <-> exists rest, skipn (c_pos c) T = w ++ rest) ->
    exists b r', u_prefix U ops w r = (Ok b, r') /\ holds r' c /\ (b = true <-> exists rest, skipn (c_pos c) T = w ++ rest) /\ b = b').
  { intros HE b' _ Hb'. destruct (sp_prefix _ _ _ _ _ _ Hops _ _ w R HE) as (b & r' & K1 & K2 & K3). unfold left_ in K2. exists b, r'. split; [exact K1|]. split; [split; assumption|]. split; [exact K2|].
    destruct b, b'; try reflexivity; [symmetry; apply Hb', K2; reflexivity|apply K2, Hb'; reflexivity]. }
  destruct (p_prefix_spec T E l0 w (c_pos c) (proj1 Ho)) as [(z & S1 & S2)|[(q & S0 & S1 & S2 & S3)|(e & y & s' & S1 & S2 & S3)]].
  - left. destruct (OK) with (b' := true) as (b & r' & K1 & K2 & K3 & ->).
    + right. intros Z. inversion Z as [|y s' Z1|]. rewrite S1 in Z1. apply (f_equal (@length N)) in Z1. rewrite !app_length in Z1. cbn in Z1. lia.
    + rewrite S2. reflexivity.
    + split; eauto.
    + exists true, r'. rewrite S2. auto.
  - left. destruct (OK) with (b' := false) as (b & r' & K1 & K2 & K3 & ->); [exact S3|rewrite S1; reflexivity|split; [discriminate|contradiction]|].
    exists false, r'. rewrite S1. auto.
  - right. assert (Hy : beyond (left_ T c) (OPrefix w)) by (rewrite S2; constructor).
    destruct (sp_prefix_fail _ _ _ _ _ _ Hops _ _ w e R (proj1 Ho) S1 Hy) as (x & r' & c' & K1 & K2 & K3 & K4). exists x, r', c'.
    rewrite S3. cbn [fst snd]. split; [exact K1|]. split; [split; [exact K3|eapply orderly_stopped; eassumption]|]. rewrite (told _ _ K2), (proj1 K4). split; [reflexivity|exact K4].
Qed.
Lemma simu_prefix : forall ctx w, simu ctx ctx (u_prefix U ops w) (pprefix E w).
Proof.
  intros ctx w r c R O. destruct (own_prefix w _ _ R) as [(b & r' & K1 & K2 & _ & K3)|(x & r' & c' & K1 & K2 & K3 & K4)]; rewrite K3; cbn [fst snd].
  - exists r', c. auto.
  - exists r', c'. split; [exact K1|]. split; [exact K2|]. split; [reflexivity|eapply stopped_among; eassumption].
Qed.
Lemma own_skip : forall n r c, holds r c -> E = None \/ n <= length (skipn (c_pos c) T) -> exists r', u_skip U ops n r = (Ok (Nat.min n (length (skipn (c_pos c) T))), r') /\
  holds r' (Cur (c_pos c + Nat.min n (length (skipn (c_pos c) T))) (c_marks c)).
Proof.
  intros n r c (R & Ho) HE. destruct (sp_skip _ _ _ _ _ _ Hops _ _ n R HE) as (r' & K1 & K2). exists r'. split; [exact K1|]. split; [exact K2|].
  apply (orderly_move c); [exact Ho|]. unfold left_. lia.
Qed.
Lemma simu_skip_any : forall ctx n, simu ctx ctx (u_skip U ops n) (pskip_any E n).
Proof.
  intros ctx n r c R O. unfold pskip_any, pbind. rewrite ppeek_loop_st.
  destruct (p_peek_spec T E l0 n _ (holds_bound _ _ R)) as [(S1 & S2)|(e & S1 & S2 & S3)].
  - destruct (own_skip n _ _ R S1) as (r' & K1 & K2).
    rewrite S2. cbn [fst snd pret]. exists r'. eexists. rewrite firstn_length. split; [exact K1|]. split; [exact K2|]. cbn. auto.
  - destruct R as (R & Ho). destruct (sp_skip_fail _ _ _ _ _ _ Hops _ _ n e R (proj1 Ho) S1 S2) as (x & r' & K1 & K2 & K3).
    rewrite S3. cbn [fst snd pret]. exists r', (Cur (length T) (c_marks c)). split; [rewrite K1, (told _ _ K2); reflexivity|]. split; [|cbn; auto].
    split; [exact K3|]. apply (orderly_stopped c); [exact Ho|]. split; [reflexivity|now left].
Qed.
(** The marks [o] are the program's own; [base] are those it was called with. *)
Lemma simu_sprog_own : forall p o base, Forall (fun x => snd x <= length T) o ->
  simu (o ++ base) base (own_run_sprog U ops p (map fst o)) (prun_sprog E p (map (fun x => st (snd x)) o)).
Proof.
  assert (Hsub : forall (o base : list (N * nat)), among base (o ++ base)) by (intros; apply among_right).
  induction p as [r|e|k IH|k IH|k IH|w k IH|n k IH|n k IH|k IH|i k IH|i k IH]; intros o base Ho; cbn [own_run_sprog prun_sprog].
  - eapply simu_weak; [apply among_refl|apply Hsub|apply simu_ret].
  - eapply simu_weak; [apply among_refl|apply Hsub|apply simu_fail].
  - eapply simu_bind; [apply Hsub|apply simu_read|]. intros a. apply IH; auto.
  - eapply simu_bind; [apply Hsub|apply simu_location|]. intros a. apply IH; auto.
  - eapply simu_bind; [apply Hsub|apply simu_is_eof|]. intros a. apply IH; auto.
  - eapply simu_bind; [apply Hsub|apply simu_prefix|]. intros a. apply IH; auto.
  - eapply simu_bind; [apply Hsub|apply simu_peek|]. intros a. apply IH; auto.
  - eapply simu_bind; [apply Hsub|apply simu_skip_any|]. intros a. apply IH; auto.
  - apply simu_mark. intros m q Hq. apply (IH ((m, q) :: o)); auto.
  - rewrite !skipn_map_cons. pose proof (among_skipn i o) as Hs. destruct (skipn i o) as [|(m & q) older] eqn:Ei; cbn [map fst snd]; [apply IH; auto|].
    assert (Hq : q <= length T /\ Forall (fun x => snd x <= length T) older).
    { pose proof Ho as Ho2. rewrite <- (firstn_skipn i o), Ei in Ho2. apply Forall_app in Ho2 as (_ & Ho2). split; [exact (Forall_inv Ho2)|exact (Forall_inv_tail Ho2)]. }
    destruct Hq as (Hq & Hold). intros r c R O.
    destruct (reset_held (older ++ base) m q r c R) as (n & r1 & c1 & K1 & K2 & K3 & K4 & K5).
    { eapply among_trans; [exact O|]. exact (among_app base _ _ Hs). }
    rewrite (ubind_ok _ _ _ _ _ K1), (pbind_ok pget _ _ _ _ eq_refl). unfold pbind at 1, pput.
    replace (length (p_rest (st q)) - length (p_rest (st (c_pos c)))) with n.
    2:{ unfold st. cbn [p_rest]. rewrite !skipn_length. pose proof (holds_bound _ _ R). lia. }
    rewrite <- K3. apply (IH n older base Hold r1 c1 K2 K4).
  - rewrite !skipn_map_cons. pose proof (among_skipn i o) as Hs. destruct (skipn i o) as [|(m & q) older] eqn:Ei; cbn [map fst snd]; [apply IH; auto|].
    eapply (simu_weak ((m, q) :: older ++ base)); [exact (among_app base _ _ Hs)|apply among_refl|].
    apply simu_unmark. apply IH.
    pose proof Ho as Ho2. rewrite <- (firstn_skipn i o), Ei in Ho2. apply Forall_app in Ho2 as (_ & Ho2). exact (Forall_inv_tail Ho2).
Qed.
Lemma simu_sprog : forall p ctx, simu ctx ctx (own_run_sprog U ops p []) (prun_sprog E p []).
Proof. intros p ctx. exact (simu_sprog_own p [] ctx (Forall_nil _)). Qed.
Lemma simu_chars_loop : forall fuel pred max n ctx, simu ctx ctx (own_chars_loop U ops fuel pred max n) (pchars_loop E fuel pred max n).
Proof.
  induction fuel as [|f IH]; intros pred max n ctx; [apply simu_no_fuel|]. cbn [own_chars_loop pchars_loop].
  destruct (match max with Some m => N.ltb n m | None => true end); [|apply simu_ret].
  apply simu_mark. intros m q Hq. eapply simu_bind; [|apply simu_read|].
  { apply am_skip. apply among_refl. }
  intros [c|].
  - destruct (negb (pred c)).
    + apply simu_reset; [exact Hq|]. intros _. apply simu_ret.
    + apply simu_unmark. apply simu_seq; [apply IH|]. intros rest. apply simu_ret.
  - eapply simu_weak; [| |apply simu_ret]; [apply among_refl|apply am_skip; apply among_refl].
Qed.
Lemma simu_chars_scan : forall fuel pred min max def ctx, simu ctx ctx (own_chars_scan U ops fuel pred min max def) (pchars_scan E fuel pred min max def).
Proof.
  intros fuel pred min max def ctx. unfold own_chars_scan, pchars_scan. apply simu_mark. intros m q Hq.
  eapply simu_bind; [apply among_drop|apply simu_location|]. intros loc.
  eapply simu_bind; [apply among_drop|apply simu_chars_loop|]. intros buf.
  destruct (match min with Some m0 => _ | None => false end).
  - apply simu_reset; [exact Hq|]. intros _. apply simu_ret.
  - eapply simu_weak; [apply among_refl|apply among_drop|apply simu_ret].
Qed.
Lemma skip_held : forall n r c, holds r c -> n <= length (skipn (c_pos c) T) ->
  exists k r', u_skip U ops n r = (Ok k, r') /\ holds r' (Cur (c_pos c + n) (c_marks c)).
Proof. intros n r c R Hn. destruct (own_skip n _ _ R (or_intror Hn)) as (r' & K1 & K2). rewrite Nat.min_l in K2 by exact Hn. eauto. Qed.
Lemma simu_regex_scan : forall find def ctx, simu ctx ctx (own_regex_scan U ops find def) (pregex_scan E find def).
Proof.
  intros find def ctx. unfold own_regex_scan, pregex_scan. apply simu_seq; [apply simu_location|]. intros loc r c R O.
  destruct (own_peek (S regex_max) _ _ R) as [(r1 & K1 & K2 & K3)|(x & r1 & c1 & K1 & K2 & K3 & K4)].
  2:{ rewrite (ubind_err _ _ _ _ _ K1), (pbind_err _ _ _ _ _ K3). exists r1, c1. split; [reflexivity|]. split; [exact K2|]. split; [reflexivity|eapply stopped_among; eassumption]. }
  rewrite (ubind_ok _ _ _ _ _ K1), (pbind_ok _ _ _ _ _ K3).
  set (tok := firstn (S regex_max) (skipn (c_pos c) T)).
  assert (G : forall {A} (m : act A) f, simu ctx ctx m f -> exists r' c', m r1 = (fst (f (st (c_pos c))), r') /\ holds r' c' /\
    snd (f (st (c_pos c))) = st (c_pos c') /\ among ctx (c_marks c')) by (intros A m f S; exact (S r1 c K2 O)).
  destruct (find tok) as [([|k] & len)|]; try (apply G; apply simu_ret).
  set (w := firstn len tok). destruct (Nat.ltb regex_max (length w)).
  { apply G. apply simu_seq; [apply simu_location|]. intros l. apply simu_fail. }
  assert (Hw : length w <= length (skipn (c_pos c) T)). { unfold w, tok. rewrite !firstn_length. lia. }
  destruct (skip_held _ r1 c K2 Hw) as (n & r2 & J1 & J2).
  rewrite (ubind_ok _ _ _ _ _ J1). unfold pbind, pskip, pret. rewrite st_move by exact Hw. cbn [fst snd].
  eexists _, _. split; [reflexivity|]. split; [exact J2|]. auto.
Qed.
Lemma simu_special_scan : forall fuel sc def ctx, simu ctx ctx (own_special_scan U ops fuel sc def) (pspecial_scan E fuel sc def).
Proof.
  intros fuel [nm|pred mn mx|nm find|nm prog] def ctx; cbn [own_special_scan pspecial_scan].
  - apply simu_ret.
  - apply simu_chars_scan.
  - apply simu_regex_scan.
  - apply simu_sprog.
Qed.
Lemma simu_terminal : forall g addr ins s events ctx, simu ctx ctx (own_terminal_step U g ops addr ins s events) (pterminal_step g E addr ins s events).
Proof.
  intros g addr ins s events ctx r c R O. unfold own_terminal_step, pterminal_step.
  destruct (own_prefix s _ _ R) as [(b & r1 & K1 & K2 & K3 & K4)|(x & r1 & c1 & K1 & K2 & K3 & K4)].
  2:{ rewrite (ubind_err _ _ _ _ _ K1), (pbind_err _ _ _ _ _ K3). exists r1, c1. split; [reflexivity|]. split; [exact K2|]. split; [reflexivity|eapply stopped_among; eassumption]. }
  rewrite (ubind_ok _ _ _ _ _ K1), (pbind_ok _ _ _ _ _ K4). destruct b.
  - destruct (proj1 K3 eq_refl) as (rest & S1). unfold own_location. unfold ubind at 1. rewrite (own_loc _ _ K2).
    assert (Hs : length s <= length (skipn (c_pos c) T)) by (rewrite S1, app_length; lia).
    destruct (skip_held (length s) r1 c K2 Hs) as (n & r2 & J1 & J2).
    rewrite (ubind_ok _ _ _ _ _ J1). unfold pbind, ploc, pskip, pret. rewrite st_move by exact Hs. cbn [fst snd].
    eexists _, _. split; [reflexivity|]. split; [exact J2|]. auto.
  - refine (simu_seq ctx _ _ _ _ (simu_err_expected _ _ _) _ r1 c K2 O). intros x. apply simu_ret.
Qed.
(** [sub] against its pure counterpart. *)
Lemma simu_rep_loop : forall ctx (sub : list event -> act (prospect * list event)) psub fuel mn mx i temp,
  (forall ctx evs, simu ctx ctx (sub evs) (psub evs)) ->
  simu ctx ctx (own_rep_loop U ops sub fuel mn mx i temp) (prep_loop psub fuel mn mx i temp).
Proof.
  intros ctx sub psub fuel mn mx i temp Hs. revert i temp. induction fuel as [|f IH]; intros i temp; [apply simu_no_fuel|].
  cbn [own_rep_loop prep_loop]. destruct (N.ltb i mx); [|apply simu_ret].
  intros r c R O. unfold ubind at 1, own_location. 
  assert (L : u_location U ops r = p_at (st (c_pos c))). { rewrite (own_loc _ _ R). reflexivity. }
  revert r c R O L. 
  enough (H : forall loc, simu ctx ctx (letu mark := u_mark U ops in letu (p, temp0) := sub temp in match p with
     | Proceed => letu loc' := own_location U ops in if ((mx =? u32_max)%N && loc_eqb loc' loc)%bool then ufail U (Error_ loc MLivelock) else own_rep_loop U ops sub f mn mx (i + 1)%N temp0
     | NotThisWay e => if (i <? mn)%N then uret U (inl e) else letu _ := u_reset U ops mark in uret U (inr temp0) end)
     (letp s := pget in letp (p, temp0) := psub temp in match p with
     | Proceed => letp loc' := ploc in if ((mx =? u32_max)%N && loc_eqb loc' loc)%bool then pfail (Error_ loc MLivelock) else prep_loop psub f mn mx (i + 1)%N temp0
     | NotThisWay e => if (i <? mn)%N then pret (inl e) else letp _ := pput s in pret (inr temp0) end)).
  { intros r c R O L. destruct (H (u_location U ops r) r c R O) as (r' & c' & K). exists r', c'.
    unfold pbind at 1, pget. cbv beta iota. unfold pbind at 1, pget in K. cbv beta iota in K. rewrite L in *. exact K. }
  intros loc. apply simu_mark. intros m q Hq. eapply simu_bind; [apply among_drop|apply Hs|]. intros ([|e] & temp0).
  - eapply simu_weak; [apply among_drop|apply among_refl|]. apply simu_seq; [apply simu_location|]. intros loc'.
    destruct ((mx =? u32_max)%N && loc_eqb loc' loc)%bool; [apply simu_fail|apply IH].
  - destruct (N.ltb i mn).
    + eapply simu_weak; [apply among_drop|apply among_refl|]. apply simu_ret.
    + apply simu_reset; [exact Hq|]. intros _. apply simu_ret.
Qed.
Lemma simu_or_loop : forall ctx (sub : nat -> act (prospect * list event)) psub subs,
  (forall ctx a, simu ctx ctx (sub a) (psub a)) ->
  simu ctx ctx (own_or_loop U ops sub subs) (por_loop psub subs).
Proof.
  intros ctx sub psub subs Hs. induction subs as [|a subs IH]; cbn [own_or_loop por_loop]; [apply simu_ret|].
  apply simu_mark. intros m q Hq. eapply simu_bind; [apply among_drop|apply Hs|]. intros ([|e] & temp).
  - eapply simu_weak; [apply among_drop|apply among_refl|]. apply simu_ret.
  - apply simu_reset; [exact Hq|]. intros _. apply simu_seq; [exact IH|]. intros o. apply simu_ret.
Qed.
Lemma simu_special_step : forall ctx g sub psub fuel addr ins sc events,
  (forall ctx a evs, simu ctx ctx (sub a evs) (psub a evs)) ->
  simu ctx ctx (own_special_step U g ops sub fuel addr ins sc events) (pspecial_step g psub E fuel addr ins sc events).
Proof.
  intros ctx g sub psub fuel addr ins sc events Hs. unfold own_special_step, pspecial_step. apply simu_mark. intros m q Hq.
  eapply simu_bind; [apply among_drop|apply simu_special_scan|]. intros [evts| |id].
  - apply simu_unmark. apply simu_ret.
  - apply simu_reset; [exact Hq|]. intros _. apply simu_seq; [apply simu_err_expected|]. intros e. apply simu_ret.
  - destruct (g_label g id) as [next|].
    + apply simu_unmark. apply simu_seq; [apply Hs|]. intros (p & ev). apply simu_ret.
    + apply simu_reset; [exact Hq|]. intros _. apply simu_seq; [apply simu_location|]. intros l. apply simu_fail.
Qed.
Lemma own_capture : forall fuel q r c, holds r c -> c_pos c <= q -> q <= length T ->
  exists r' c', holds r' c' /\ c_marks c' = c_marks c /\
   c_pos c' = (if Nat.ltb (q - c_pos c) fuel then q else c_pos c + fuel) /\
   own_capture_loop U ops fuel (loc_at q) r =
     (if Nat.ltb (q - c_pos c) fuel then Ok (firstn (q - c_pos c) (skipn (c_pos c) T)) else OutOfFuel, r').
Proof.
  induction fuel as [|f IH]; intros q r c R Hp Hq.
  { exists r, c. split; auto. split; auto. split; [apply eq_sym, Nat.add_0_r|reflexivity]. }
  cbn [own_capture_loop]. assert (L : own_location U ops r = (Ok (loc_at (c_pos c)), r)).
  { unfold own_location. rewrite (own_loc _ _ R). reflexivity. }
  rewrite (ubind_ok _ _ _ _ _ L).
  destruct (Nat.eq_dec (c_pos c) q) as [He|He].
  - rewrite He. rewrite !N.ltb_irrefl. cbn [orb]. rewrite Nat.sub_diag. cbn. exists r, c. repeat (split; auto).
  - rewrite loc_before by lia.
    destruct (skipn (c_pos c) T) as [|x rest] eqn:Es.
    { apply skipn_nil_len in Es; [|lia]. lia. }
    destruct (own_read _ _ R) as (r1 & K1 & K2). { right. rewrite Es. discriminate. }
    rewrite Es in K1, K2.
    cbn [hd_error firstn length] in K1, K2.
    rewrite (ubind_ok _ _ _ _ _ K1).
    destruct (IH q r1 _ K2) as (r2 & c2 & J1 & J2 & J3 & J4); cbn [c_pos c_marks] in *; [lia|exact Hq|].
    exists r2, c2. split; [exact J1|]. split; [exact J2|].
    assert (Hsub : q - c_pos c = S (q - (c_pos c + 1))) by lia. rewrite Hsub.
    change (Nat.ltb (S (q - (c_pos c + 1))) (S f)) with (Nat.ltb (q - (c_pos c + 1)) f).
    split; [rewrite J3; destruct (Nat.ltb (q - (c_pos c + 1)) f); [reflexivity|lia]|]. unfold ubind. rewrite J4. destruct (Nat.ltb (q - (c_pos c + 1)) f); [|reflexivity].
    cbn. do 3 f_equal. rewrite Nat.add_1_r. rewrite (skipn_cons _ _ _ _ Es). reflexivity.
Qed.
Lemma held_below : forall m q ctx r c, holds r c -> among ((m, q) :: ctx) (c_marks c) -> q <= c_pos c.
Proof.
  intros m q ctx r c (_ & _ & H) O. pose proof (among_in _ _ O _ (or_introl eq_refl)) as Hin. apply in_split in Hin as (a & b & Hin). apply (H _ _ _ _ Hin).
Qed.
Lemma simu_except : forall g sub (lib : subrun) psub fuel addr factor exc events,
  (forall ctx a evs, simu ctx ctx (sub a evs) (psub E a evs)) -> (forall T l0 ctx a evs, simc T None l0 ctx ctx (lib a evs) (psub None a evs)) ->
  forall ctx, simu ctx ctx (own_except_scan U debug g ops sub lib fuel addr factor exc events) (pexcept_scan g psub E fuel addr factor exc events).
Proof.
  intros g sub lib psub fuel addr factor exc events Hs Hlib ctx r c R O. unfold own_except_scan, pexcept_scan.
  assert (L : own_location U ops r = (Ok (p_at (st (c_pos c))), r)).
  { unfold own_location. rewrite (own_loc _ _ R). reflexivity. }
  rewrite (ubind_ok _ _ _ _ _ L). set (begin := p_at (st (c_pos c))).
  assert (Hb : begin = p_at (st (c_pos c))) by reflexivity. clearbody begin. clear L. revert r c R O Hb.
  (* the rest of the program, from any state at this place *)
  enough (H : forall q, q <= length T -> begin = p_at (st q) -> forall m, simu ((m, q) :: ctx) ctx
    (letu (p, temp) := sub factor [] in
      match p with
      | Proceed =>
          letu end_ := own_location U ops in
          letu _ := u_reset U ops m in
          letu mark := u_mark U ops in
          letu buffer := own_capture_loop U ops fuel end_ in
          letu l := own_location U ops in
          if (debug && negb (loc_eqb end_ l))%bool then ucrash U PDebugAssert
          else
            let test := (let! (p, _) := lib exc [] in match p with Proceed => m_is_eof debug | NotThisWay _ => ret false end) (mr_of_text begin buffer) in
            match fst test with
            | Ok true => letu _ := u_reset U ops mark in letu e := own_err_expected U g ops (Some addr) in uret U (NotThisWay e, events)
            | Ok false => uret U (Proceed, events ++ temp)
            | Err e => ufail U e
            | Panic x => ucrash U x
            | OutOfFuel => uno_fuel U
            end
      | NotThisWay e => letu _ := u_reset U ops m in uret U (NotThisWay e, events)
      end)
    ((fun s => letp (p, temp) := psub E factor [] in
      match p with
      | NotThisWay e => letp _ := pput s in pret (NotThisWay e, events)
      | Proceed =>
          letp s' := pget in
          let buffer := between s s' in
          if Nat.ltb (length buffer) fuel then
            let test := (letp (p, _) := psub None exc [] in match p with Proceed => peof None | NotThisWay _ => pret false end) (Pst buffer (p_at s)) in
            match fst test with
            | Ok true => letp _ := pput s in letp e := perr_expected E g (Some addr) in pret (NotThisWay e, events)
            | Ok false => pret (Proceed, events ++ temp)
            | Err e => pfail e
            | Panic x => pcrash x
            | OutOfFuel => pno_fuel
            end
          else fun _ => (OutOfFuel, move fuel s)
      end) (st q))).
  { intros r c R O Hb.
    destruct (own_mark _ _ R) as (m & r1 & K1 & K3).
    rewrite (ubind_ok _ _ _ _ _ K1). apply (H (c_pos c) (holds_bound _ _ R) Hb m r1 _ K3). cbn. apply am_keep. exact O. }
  intros q Hq Hb m. cbv beta. eapply simu_bind; [apply among_drop|apply Hs|]. intros ([|e] & temp).
  2:{ apply simu_reset; [exact Hq|]. intros _. apply simu_ret. }
  intros r c R O.
  assert (L : own_location U ops r = (Ok (loc_at (c_pos c)), r)).
  { unfold own_location. rewrite (own_loc _ _ R). reflexivity. }
  rewrite (ubind_ok _ _ _ _ _ L).
  assert (Lq : q <= c_pos c) by (eapply held_below; eauto).
  destruct (reset_held _ _ _ _ _ R O) as (n & r1 & c1 & K1 & K2 & K3 & K4 & _). rewrite (ubind_ok _ _ _ _ _ K1).
  destruct (own_mark _ _ K2) as (m2 & r2 & J1 & J3). rewrite (ubind_ok _ _ _ _ _ J1). rewrite K3 in J3.
  destruct (own_capture fuel (c_pos c) r2 _ J3 Lq (holds_bound _ _ R)) as (r3 & c3 & I1 & I2 & I3 & I4).
  cbn [c_pos c_marks] in I2, I3, I4.
  rewrite (pbind_ok pget _ (st (c_pos c)) _ _ eq_refl). cbv zeta. rewrite between_st by (auto; apply (holds_bound _ _ R)).
  set (buf := firstn (c_pos c - q) (skipn q T)) in *.
  assert (Hlen : length buf = c_pos c - q). { unfold buf. rewrite firstn_length, skipn_length. pose proof (holds_bound _ _ R). lia. }
  rewrite Hlen. pose proof (holds_bound _ _ R) as Hbd. destruct (Nat.ltb_spec (c_pos c - q) fuel) as [Hf|Hf].
  2:{ rewrite (ubind_fuel _ _ _ _ I4). cbn [fst snd]. exists r3, c3. split; [reflexivity|]. split; [exact I1|].
      rewrite I3, I2. split; [|apply am_skip; exact K4]. apply st_move. rewrite skipn_length. lia. }
  rewrite (ubind_ok _ _ _ _ _ I4).
  assert (L3 : own_location U ops r3 = (Ok (loc_at (c_pos c)), r3)).
  { rewrite <- I3. unfold own_location. rewrite (own_loc _ _ I1). reflexivity. }
  rewrite (ubind_ok _ _ _ _ _ L3), loc_eqb_refl, andb_false_r.
  rewrite (sim_test debug begin buf (lib exc []) (psub None exc [])) by (intros; apply Hlib). rewrite Hb.
  assert (G : forall {A} (mm : act A) f, simu ((m2, q) :: ctx) ctx mm f -> exists r' c', mm r3 = (fst (f (st (c_pos c))), r') /\ holds r' c' /\
    snd (f (st (c_pos c))) = st (c_pos c') /\ among ctx (c_marks c')).
  { intros A mm f S. rewrite <- I3. apply S; [exact I1|]. rewrite I2. apply am_keep. exact K4. }
  match goal with |- context [fst ?x] => destruct (fst x) as [[|]|e|x1|] eqn:Et end.
  all: try rewrite Et.
  - apply G. apply simu_reset; [exact Hq|]. intros _. apply simu_seq; [apply simu_err_expected|]. intros e. apply simu_ret.
  - apply G. eapply simu_weak; [apply among_drop|apply among_refl|apply simu_ret].
  - apply G. eapply simu_weak; [apply among_drop|apply among_refl|apply simu_fail].
  - apply G. eapply simu_weak; [apply among_drop|apply among_refl|apply simu_crash].
  - apply G. eapply simu_weak; [apply among_drop|apply among_refl|apply simu_no_fuel].
Qed.

(** The whole machine. *)
Theorem simu_run : forall g fuel ctx next events,
  simu ctx ctx (own_run U debug g ops fuel next events) (prun g fuel E next events).
Proof.
  intros g. induction fuel as [|f IH]; intros ctx next events; [apply simu_no_fuel|].
  cbn [own_run prun]. destruct next as [addr|]; [|apply simu_ret].
  destruct (nth_error (g_instrs g) addr) as [ins|]; [|apply simu_crash].
  assert (Hc : forall ctx pe, simu ctx ctx
     (let '(p, evs) := pe in match p with NotThisWay e => uret U (NotThisWay e, evs) | Proceed => own_run U debug g ops f (i_next ins) evs end)
     (let '(p, evs) := pe in match p with NotThisWay e => pret (NotThisWay e, evs) | Proceed => prun g f E (i_next ins) evs end)).
  { intros ctx' ([|e] & evs); [apply IH|apply simu_ret]. }
  destruct (i_step ins) as [mn mx s|subs|s|sc| |fa ex|id].
  - apply simu_seq; [apply simu_rep_loop; intros; apply IH|]. intros [e|temp]; [apply simu_ret|apply IH].
  - apply simu_seq; [apply simu_or_loop; intros; apply IH|]. intros [es|temp]; [|apply IH].
    destruct (pick_error (rev es)) as [err|]; [|apply simu_crash].
    apply simu_seq; [apply simu_location|]. intros l. destruct (loc_eqb (e_loc err) l); [|apply simu_ret].
    apply simu_seq; [apply simu_err_expected|]. intros e. apply simu_ret.
  - apply simu_seq; [apply simu_terminal|]. apply Hc.
  - apply simu_seq; [apply simu_special_step; intros; apply IH|]. apply Hc.
  - apply IH.
  - apply simu_seq; [apply (simu_except g (fun a evs => own_run U debug g ops f (Some a) evs) (fun a evs => run debug g f (Some a) evs) (fun en a evs => prun g f en (Some a) evs)); intros; [apply IH|apply simc_run]|]. apply Hc.
  - destruct (g_label g id) as [a|]; [|apply simu_crash]. destruct (g_canonical g id) as [nm|]; [|apply simu_crash].
    apply simu_seq; [apply simu_location|]. intros l. apply simu_seq; [apply IH|]. intros ([|e] & temp); [|apply simu_ret].
    apply simu_seq; [apply simu_location|]. intros l'. apply IH.
Qed.
Theorem simu_parse : forall g fuel ctx entry,
  simu ctx ctx (own_machine_parse U debug g ops fuel entry) (pmachine_parse g debug fuel E entry).
Proof.
  intros g fuel ctx entry. unfold own_machine_parse, pmachine_parse.
  apply simu_seq; [apply simu_run|]. intros ([|e] & events); [|apply simu_fail].
  apply simu_seq; [apply simu_is_eof|]. intros [|].
  - destruct (debug && negb (removed_labels_agree (List.tl events)))%bool; [apply simu_crash|apply simu_ret].
  - apply simu_seq; [apply simu_err_expected|]. intros e. apply simu_fail.
Qed.
End Sim.
