(** Facts about [Syntax::new] and the lookups. *)
From Coq Require Import String List NArith Arith Bool Lia.
From Verif Require Import Base Ident Tokenizer Ast Lex Syntax SpecText SpecTok SpecGram SpecTree SpecSyntax
  TextFacts TreeFacts.
Import ListNotations.
Open Scope nat_scope.

(** ** Names *)
Lemma same_name_keyed : forall a b, same_name a b <-> keyed a = keyed b.
Proof.
  intros a b. split.
  - intros (wa & wb & Ha & Hb & E). rewrite (keyed_words _ _ Ha), (keyed_words _ _ Hb). exact E.
  - intros E. destruct (words_total a) as (wa & Ha), (words_total b) as (wb & Hb). exists wa, wb.
    rewrite <- (keyed_words _ _ Ha), <- (keyed_words _ _ Hb). auto.
Qed.
Lemma canonical_unwords : forall n s, length s <= n -> canonical s -> forall ws, words_of s ws -> s = unwords ws.
Proof.
  induction n as [|n IH]; intros s Hn Hc ws Hw.
  - destruct s; [|cbn in Hn; lia]. apply words_inv in Hw. subst. reflexivity.
  - destruct Hc as (C1 & C2 & C3 & C4). destruct Hw as [|c s ws Hc Hw|w s ws Hne HF Hs Hw]; [reflexivity| |].
    + exfalso. exact (C3 _ _ eq_refl Hc).
    + destruct Hs as [->|(c & s' & -> & Hc)].
      * apply words_inv in Hw. subst. apply app_nil_r.
      * assert (Hc32 : c = 32%N) by (apply C1; [apply in_app_iff; right; left; reflexivity|exact Hc]). subst c.
        assert (Hw' : words_of s' ws). { apply words_inv in Hw as [(_ & H)|(H & _)]; [exact H|contradiction]. }
        assert (Hs' : s' <> []). { intros ->. exact (C4 _ _ eq_refl Hc). }
        assert (Hcan : canonical s').
        { split; [|split; [|split]].
          - intros c H. apply C1. apply in_app_iff. right. right. exact H.
          - intros a b c d -> . apply (C2 (w ++ 32%N :: a) b). rewrite <- app_assoc. reflexivity.
          - intros c r -> Hg. apply (C2 w r 32%N c eq_refl). auto.
          - intros c r ->. apply (C4 c (w ++ 32%N :: r)). rewrite <- app_assoc. reflexivity. }
        assert (E : s' = unwords ws).
        { apply IH; auto. rewrite app_length in Hn. cbn in Hn. lia. }
        destruct ws as [|w2 ws]; [cbn in E; congruence|].
        change (unwords (w :: w2 :: ws)) with (w ++ 32%N :: unwords (w2 :: ws)). rewrite <- E. reflexivity.
Qed.
Lemma canonical_normalized : forall s, canonical s <-> normalized s = s.
Proof.
  intros s. split.
  - intros H. destruct (words_total s) as (ws & Hw). rewrite (normalized_words _ _ Hw).
    symmetry. exact (canonical_unwords (length s) s (Nat.le_refl _) H ws Hw).
  - intros H. rewrite <- H. apply normalized_canonical.
Qed.
Lemma name_ok_canonical : forall id, name_ok id -> canonical id.
Proof.
  intros id (ws & _ & HF & ->). apply unwords_canonical. eapply Forall_impl; [|exact HF]. intros a. apply word_text.
Qed.

(** ** Registration *)
Lemma lookup_insert : forall {A} k k' (a : A) m, lookup k (insert k' a m) = if str_eqb k k' then Some a else lookup k m.
Proof. reflexivity. Qed.
(** The maps after the first [i] rules. *)
Definition maps_ok (all : list rule) (i : nat) (names : list (str * str)) (index : list (str * nat)) : Prop :=
  forall k,
    (forall j, lookup k index = Some j -> j < i /\ exists r, nth_error all j = Some r /\ keyed (r_id r) = k /\ lookup k names = Some (r_id r)) /\
    (lookup k index = None -> lookup k names = None /\ forall j r, j < i -> nth_error all j = Some r -> keyed (r_id r) <> k).
Lemma maps_unique : forall all i names index k j r, maps_ok all i names index -> no_repeat (firstn i all) ->
  j < i -> nth_error all j = Some r -> keyed (r_id r) = k -> lookup k index = Some j.
Proof.
  intros all i names index k j r Hm Hn Hj Hr Hk. destruct (Hm k) as (H1 & H2).
  destruct (lookup k index) as [j'|] eqn:E.
  - destruct (H1 j' eq_refl) as (Hj' & r' & Hr' & Hk' & _). f_equal.
    assert (L : forall m x, m < i -> nth_error all m = Some x -> nth_error (firstn i all) m = Some x).
    { clear. intros m x Hm Hx. revert all i Hm Hx. induction m; intros [|a all] [|i] Hm Hx; cbn in *; try discriminate; try lia; auto.
      apply IHm; [lia|exact Hx]. }
    destruct (lt_eq_lt_dec j j') as [[Hlt|He]|Hlt]; [exfalso|auto|exfalso].
    + apply (Hn j' j r' r). repeat split; auto. apply same_name_keyed. congruence.
    + apply (Hn j j' r r'). repeat split; auto. apply same_name_keyed. congruence.
  - exfalso. destruct (H2 eq_refl) as (_ & H3). exact (H3 j r Hj Hr Hk).
Qed.

Lemma nth_firstn : forall {A} (l : list A) i m x, nth_error (firstn i l) m = Some x <-> m < i /\ nth_error l m = Some x.
Proof.
  intros A l i m x. revert i m. induction l as [|a l IH]; intros [|i] [|m]; cbn; split; try (intros (? & ?)); intros; try discriminate; try lia; auto.
  - split; [lia|auto].
  - apply IH in H. split; [lia|tauto].
  - apply IH. split; [lia|auto].
Qed.
Lemma firstn_S : forall {A} (l : list A) i x, nth_error l i = Some x -> firstn (S i) l = firstn i l ++ [x].
Proof.
  intros A l. induction l as [|a l IH]; intros [|i] x H; try discriminate; cbn in *.
  - injection H as ->. reflexivity.
  - rewrite <- (IH i x H). reflexivity.
Qed.

Inductive outcome (all : list rule) : res (list (str * str) * list (str * nat)) -> Prop :=
| out_ok : forall names index, maps_ok all (length all) names index -> no_repeat all ->
    Forall (fun x => canonical (r_id x)) all -> outcome all (Ok (names, index))
| out_dup : forall r d, first_repeat all r d ->
    outcome all (Err (Error_ (r_loc r) (MDuplicate (r_id r) (l_lines (r_loc d)) (l_columns (r_loc d)))))
| out_panic : forall i r, nth_error all i = Some r -> ~ canonical (r_id r) -> no_repeat (firstn i all) ->
    Forall (fun x => canonical (r_id x)) (firstn i all) -> outcome all (Panic PAssert).
Lemma register_spec : forall rest all i names index,
  all = firstn i all ++ rest -> i + length rest = length all ->
  maps_ok all i names index -> no_repeat (firstn i all) -> Forall (fun x => canonical (r_id x)) (firstn i all) ->
  outcome all (register_rules all i rest names index).
Proof.
  induction rest as [|r rest IH]; intros all i names index Ea El Hm Hn Hc; cbn [register_rules].
  - rewrite app_nil_r in Ea. rewrite <- Ea in Hn, Hc. cbn in El. rewrite Nat.add_0_r in El. subst i.
    constructor; assumption.
  - assert (Hr : nth_error all i = Some r).
    { cbn in El. rewrite Ea. rewrite nth_error_app2; rewrite firstn_length_le by lia; [|lia].
      rewrite Nat.sub_diag. reflexivity. }
    destruct (str_eqb (normalized (r_id r)) (r_id r)) eqn:Ec; cbn [negb].
    2:{ apply str_eqb_neq in Ec. eapply out_panic; eauto. rewrite canonical_normalized. exact Ec. }
    apply str_eqb_eq in Ec.
    assert (Hcr : canonical (r_id r)) by (apply canonical_normalized; exact Ec).
    destruct (Hm (keyed (r_id r))) as (M1 & M2). destruct (lookup (keyed (r_id r)) index) as [j|] eqn:Ej.
    + destruct (M1 j eq_refl) as (Hj & d & Hd & Hk & ->). rewrite Hd.
      apply out_dup. exists i, j. split; [|split; [exact Hn|]].
      * repeat split; auto. apply same_name_keyed. auto.
      * rewrite (firstn_S _ _ _ Hr). apply Forall_app. split; [exact Hc|constructor; [exact Hcr|constructor]].
    + destruct (M2 eq_refl) as (-> & Hno). rewrite Ec. apply IH.
      * rewrite (firstn_S _ _ _ Hr), <- app_assoc. exact Ea.
      * cbn in El. lia.
      * intros k. rewrite !lookup_insert. destruct (str_eqb k (keyed (r_id r))) eqn:Ek.
        -- apply str_eqb_eq in Ek. subst k. split; [|discriminate]. intros j E. injection E as <-. split; [lia|]. exists r. auto.
        -- apply str_eqb_neq in Ek. destruct (Hm k) as (K1 & K2). split.
           ++ intros j Hj. destruct (K1 j Hj) as (H1 & H2). split; [lia|exact H2].
           ++ intros Hj. destruct (K2 Hj) as (H1 & H2). split; [exact H1|]. intros m x Hlt Hx.
              destruct (Nat.eq_dec m i) as [->|Hne]; [|apply (H2 m); [lia|exact Hx]]. congruence.
      * rewrite (firstn_S _ _ _ Hr). intros a b x y (Hab & Hx & Hy & Hs). apply same_name_keyed in Hs.
        rewrite <- (firstn_S _ _ _ Hr) in Hx, Hy. apply nth_firstn in Hx as (Ha & Hx). apply nth_firstn in Hy as (Hb & Hy).
        destruct (Nat.eq_dec a i) as [->|Hne].
        -- assert (x = r) by congruence. subst x. exact (Hno b y Hab Hy (eq_sym Hs)).
        -- apply (Hn a b x y). split; [exact Hab|]. split; [apply nth_firstn; split; [lia|exact Hx]|].
           split; [apply nth_firstn; split; [lia|exact Hy]|apply same_name_keyed; exact Hs].
      * rewrite (firstn_S _ _ _ Hr). apply Forall_app. split; [exact Hc|constructor; [exact Hcr|constructor]].
Qed.
Lemma register_outcome : forall all, outcome all (register_rules all 0 all [] []).
Proof.
  intros all. apply register_spec; auto.
  - intros k. split; [discriminate|]. intros _. split; [reflexivity|]. intros j r Hj. lia.
  - intros i j r d (_ & H & _). destruct i; discriminate.
  - constructor.
Qed.

(** ** References *)
Definition index_of {A} (all : list rule) (index : list (str * A)) : Prop :=
  forall id, (exists a, lookup (keyed id) index = Some a) <-> defined all id.
Lemma maps_index : forall all names index, maps_ok all (length all) names index -> index_of all index.
Proof.
  intros all names index Hm id. destruct (Hm (keyed id)) as (H1 & H2). split.
  - intros (j & Hj). destruct (H1 j Hj) as (_ & r & Hr & Hk & _). exists r. split; [eapply nth_error_In; exact Hr|].
    apply same_name_keyed. auto.
  - intros (r & Hr & Hs). destruct (lookup (keyed id) index) as [j|] eqn:E; [eauto|]. exfalso.
    destruct (H2 eq_refl) as (_ & H3). apply In_nth_error in Hr as (j & Hr). apply same_name_keyed in Hs.
    apply (H3 j r); [apply nth_error_Some; congruence|exact Hr|auto].
Qed.
Definition checked {X} (f : X -> res unit) (P : X -> Prop) (Q : X -> location -> str -> Prop) : Prop := forall x,
  match f x with
  | Ok _ => P x
  | Err e => exists l id, e = Error_ l (MUndefinedMeta id) /\ Q x l id
  | _ => False
  end.
Lemma try_each_checked : forall {X} (f : X -> res unit) P Q, checked f P Q ->
  checked (try_each f) (Forall P) (fun xs l id => exists a x b, xs = a ++ x :: b /\ Forall P a /\ Q x l id).
Proof.
  intros X f P Q H xs. induction xs as [|x xs IH]; cbn [try_each]; [constructor|].
  specialize (H x). destruct (f x) as [[]|e| |]; cbn [bind]; try contradiction.
  - destruct (try_each f xs) as [[]|e| |]; try contradiction.
    + constructor; assumption.
    + destruct IH as (l & id & -> & a & y & b & -> & Ha & Hq). exists l, id. split; [reflexivity|].
      exists (x :: a), y, b. repeat split; auto.
  - destruct H as (l & id & -> & Hq). exists l, id. split; [reflexivity|]. exists [], x, xs. auto.
Qed.
Definition prim_ref (p : primary) (l : location) (id : str) : Prop := p = PMeta l id.
Definition term_ref (t : term) (l : location) (id : str) : Prop :=
  f_prim (t_factor t) = PMeta l id \/ exists e, t_exc t = Some e /\ f_prim e = PMeta l id.
Lemma is_def_checked : forall {A} all (index : list (str * A)), index_of all index ->
  checked (is_def index) (fun p => forall l id, prim_ref p l id -> defined all id)
    (fun p l id => prim_ref p l id /\ ~ defined all id).
Proof.
  intros A all index Hi p. unfold prim_ref. destruct p; cbn [is_def]; try (intros; discriminate).
  destruct (lookup (keyed id) index) eqn:E.
  - intros l' id' H. injection H as <- <-. apply Hi. eauto.
  - exists l, id. split; [reflexivity|]. split; [reflexivity|]. intros H. apply Hi in H as (a & H). congruence.
Qed.
Lemma term_checked : forall {A} all (index : list (str * A)), index_of all index ->
  checked (fun t : term => let? _ := is_def index (f_prim (t_factor t)) in
    match t_exc t with Some e => is_def index (f_prim e) | None => Ok tt end)
   (fun t => forall l id, term_ref t l id -> defined all id)
   (fun t l id => term_ref t l id /\ ~ defined all id).
Proof.
  intros A all index Hi t. pose proof (is_def_checked all index Hi) as Hd. unfold term_ref, prim_ref in *.
  pose proof (Hd (f_prim (t_factor t))) as H1. destruct (is_def index (f_prim (t_factor t))) as [[]|e| |]; cbn [bind]; try contradiction.
  - destruct (t_exc t) as [e|].
    + specialize (Hd (f_prim e)). destruct (is_def index (f_prim e)) as [[]|er| |]; try contradiction.
      * intros l id [H|(e' & E & H)]; [eauto|]. injection E as <-. eauto.
      * destruct Hd as (l & id & -> & H & Hn). exists l, id. repeat split; auto. right. eauto.
    + intros l id [H|(e' & E & H)]; [eauto|discriminate].
  - destruct H1 as (l & id & -> & H & Hn). exists l, id. repeat split; auto.
Qed.
(** The first undefined reference, reading rules, definitions and terms in order. *)
Lemma all_defined_checked : forall {A} all (index : list (str * A)) rs, index_of all index ->
  match all_defined rs index with
  | Ok _ => forall r, In r rs -> forall l id, refers r l id -> defined all id
  | Err e => exists l id r, e = Error_ l (MUndefinedMeta id) /\ In r rs /\ refers r l id /\ ~ defined all id /\
      exists a b, rs = a ++ r :: b /\ forall x, In x a -> forall l id, refers x l id -> defined all id
  | _ => False
  end.
Proof.
  intros A all index rs Hi. unfold all_defined.
  pose proof (try_each_checked _ _ _ (term_checked all index Hi)) as H1.
  pose proof (try_each_checked _ _ _ H1) as H2. cbn beta in H2.
  assert (Hr : forall d, Forall (Forall (fun t => forall l id, term_ref t l id -> defined all id)) d ->
     forall s t l id, In s d -> In t s -> term_ref t l id -> defined all id).
  { intros d H s t l id Hs Ht. rewrite Forall_forall in H. specialize (H s Hs). rewrite Forall_forall in H. apply (H t Ht). }
  assert (H3 : checked (fun r => is_defined index (r_defs r))
     (fun r => forall l id, refers r l id -> defined all id) (fun r l id => refers r l id /\ ~ defined all id)).
  { intros r. unfold is_defined. specialize (H2 (r_defs r)). cbn beta in H2.
    match type of H2 with match ?m with _ => _ end => change (match m with
      | Ok _ => forall l id, refers r l id -> defined all id
      | Err e => exists l id, e = Error_ l (MUndefinedMeta id) /\ refers r l id /\ ~ defined all id | _ => False end); destruct m as [[]|e| |] end;
      try contradiction.
    - intros l id (s & t & Hs & Ht & H). eapply Hr; eauto.
    - destruct H2 as (l & id & -> & a & s & b & E & _ & a' & t & b' & -> & _ & Ht & Hn). exists l, id.
      repeat split; auto. exists (a' ++ t :: b'), t. rewrite E. split; [apply in_elt|]. split; [apply in_elt|exact Ht]. }
  pose proof (try_each_checked _ _ _ H3 rs) as H4. cbn beta in H4.
  destruct (try_each (fun r => is_defined index (r_defs r)) rs) as [[]|e| |]; try contradiction.
  - rewrite Forall_forall in H4. exact H4.
  - destruct H4 as (l & id & -> & a & r & b & -> & Ha & Hf & Hn). exists l, id, r. rewrite Forall_forall in Ha.
    repeat split; auto; [apply in_elt|]. exists a, b. auto.
Qed.

(** ** The constructor *)
Lemma new_syntax_cases : forall rs,
  match new_syntax rs with
  | Ok s => sy_rules s = rs /\ maps_ok rs (length rs) (sy_names s) (sy_index s) /\ no_repeat rs /\
      Forall (fun x => canonical (r_id x)) rs /\ (forall r l id, In r rs -> refers r l id -> defined rs id)
  | Err e =>
      (exists r d, first_repeat rs r d /\
         e = Error_ (r_loc r) (MDuplicate (r_id r) (l_lines (r_loc d)) (l_columns (r_loc d)))) \/
      (no_repeat rs /\ Forall (fun x => canonical (r_id x)) rs /\
       exists r l id, e = Error_ l (MUndefinedMeta id) /\ In r rs /\ refers r l id /\ ~ defined rs id)
  | Panic p => p = PAssert /\ exists i r, nth_error rs i = Some r /\ ~ canonical (r_id r) /\ no_repeat (firstn i rs)
  | OutOfFuel => False
  end.
Proof.
  intros rs. unfold new_syntax. pose proof (register_outcome rs) as H.
  destruct H as [names index H1 H2 H3|r d H1|i r H1 H2 H3 H4]; cbn [bind].
  - pose proof (all_defined_checked rs index rs (maps_index _ _ _ H1)) as K.
    destruct (all_defined rs index) as [[]|e| |]; cbn [bind]; try contradiction.
    + cbn. split; [reflexivity|]. split; [exact H1|]. split; [exact H2|]. split; [exact H3|].
      intros r l id Hr. exact (K r Hr l id).
    + right. destruct K as (l & id & r & -> & Hr & Hf & Hn & _). repeat split; auto. exists r, l, id. auto.
  - left. eauto.
  - split; [reflexivity|]. eauto.
Qed.

Lemma first_repeat_unique : forall rs r d r' d', first_repeat rs r d -> first_repeat rs r' d' -> r = r' /\ d = d'.
Proof.
  intros rs r d r' d' (i & j & (Hji & Hi & Hj & Hs) & Hn & _) (i' & j' & (Hji' & Hi' & Hj' & Hs') & Hn' & _).
  assert (i = i').
  { destruct (lt_eq_lt_dec i i') as [[Hlt|He]|Hlt]; [exfalso|exact He|exfalso].
    - apply (Hn' i j r d). repeat split; auto; apply nth_firstn; split; auto; lia.
    - apply (Hn i' j' r' d'). repeat split; auto; apply nth_firstn; split; auto; lia. }
  subst i'. assert (r = r') by congruence. subst r'. split; [reflexivity|].
  apply same_name_keyed in Hs, Hs'.
  destruct (lt_eq_lt_dec j j') as [[Hlt|He]|Hlt]; [exfalso|congruence|exfalso].
  - apply (Hn j' j d' d). split; [exact Hlt|]. split; [apply nth_firstn; auto|]. split; [apply nth_firstn; split; [lia|exact Hj]|].
    apply same_name_keyed. congruence.
  - apply (Hn j j' d d'). split; [exact Hlt|]. split; [apply nth_firstn; auto|]. split; [apply nth_firstn; split; [lia|exact Hj']|].
    apply same_name_keyed. congruence.
Qed.
Lemma first_repeat_repeats : forall rs r d, first_repeat rs r d -> ~ no_repeat rs.
Proof. intros rs r d (i & j & H & _) Hn. exact (Hn _ _ _ _ H). Qed.
Lemma duplicate_iff : forall rs l id ln cn,
  new_syntax rs = Err (Error_ l (MDuplicate id ln cn)) <->
  exists r d, first_repeat rs r d /\ l = r_loc r /\ id = r_id r /\ ln = l_lines (r_loc d) /\ cn = l_columns (r_loc d).
Proof.
  intros rs l id ln cn. pose proof (new_syntax_cases rs) as H. split.
  - intros E. rewrite E in H. destruct H as [(r & d & Hf & He)|(_ & _ & r & l' & id' & He & _)]; [|discriminate].
    injection He as -> -> -> ->. exists r, d. auto.
  - intros (r & d & Hf & -> & -> & -> & ->). destruct (new_syntax rs) as [s|e|p|]; [exfalso| |exfalso|contradiction].
    + destruct H as (_ & _ & Hn & _). exact (first_repeat_repeats _ _ _ Hf Hn).
    + destruct H as [(r' & d' & Hf' & ->)|(Hn & _)].
      * destruct (first_repeat_unique _ _ _ _ _ Hf Hf') as (-> & ->). reflexivity.
      * exfalso. exact (first_repeat_repeats _ _ _ Hf Hn).
    + destruct H as (_ & i & x & Hx & Hc & Hn). destruct Hf as (i' & j & (Hji & Hi & Hj & Hs) & _ & HF).
      destruct (le_lt_dec i i') as [Hle|Hlt].
      * rewrite Forall_forall in HF. apply Hc, HF. apply (nth_error_In _ i). apply nth_firstn. split; [lia|exact Hx].
      * apply (Hn i' j r d). repeat split; auto; apply nth_firstn; split; auto; lia.
Qed.
Lemma accepted_iff : forall rs, (exists s, new_syntax rs = Ok s) <->
  Forall (fun x => canonical (r_id x)) rs /\ no_repeat rs /\
  (forall r l id, In r rs -> refers r l id -> defined rs id).
Proof.
  intros rs. pose proof (new_syntax_cases rs) as H. split.
  - intros (s & E). rewrite E in H. tauto.
  - intros (Hc & Hn & Hd). destruct (new_syntax rs) as [s|e|p|]; [eauto|exfalso|exfalso|contradiction].
    + destruct H as [(r & d & Hf & _)|(_ & _ & r & l & id & _ & Hr & Hf & Hu)].
      * exact (first_repeat_repeats _ _ _ Hf Hn).
      * apply Hu. eapply Hd; eauto.
    + destruct H as (_ & i & r & Hr & Hu & _). apply Hu. rewrite Forall_forall in Hc. apply Hc. eapply nth_error_In. exact Hr.
Qed.
Lemma undefined_error : forall rs l id, new_syntax rs = Err (Error_ l (MUndefinedMeta id)) ->
  exists r, In r rs /\ refers r l id /\ ~ defined rs id.
Proof.
  intros rs l id E. pose proof (new_syntax_cases rs) as H. rewrite E in H.
  destruct H as [(r & d & _ & He)|(_ & _ & r & l' & id' & He & Hr & Hf & Hu)]; [discriminate|].
  injection He as -> ->. eauto.
Qed.
Lemma only_errors : forall rs e, new_syntax rs = Err e ->
  exists l, (exists id ln cn, e = Error_ l (MDuplicate id ln cn)) \/ (exists id, e = Error_ l (MUndefinedMeta id)).
Proof.
  intros rs e E. pose proof (new_syntax_cases rs) as H. rewrite E in H.
  destruct H as [(r & d & _ & ->)|(_ & _ & r & l' & id' & -> & _)]; eexists; [left|right]; eauto.
Qed.
Lemma lookup_faithful : forall rs s, new_syntax rs = Ok s ->
  sy_rules s = rs /\ (forall i, syntax_rule s i = nth_error rs i) /\
  forall q, match get_syntax_rule s q with
  | Ok (Some r) => canonical_name s q = Some (r_id r) /\ exists i, nth_error rs i = Some r /\
      forall j r', nth_error rs j = Some r' -> (same_name q (r_id r') <-> j = i)
  | Ok None => canonical_name s q = None /\ ~ defined rs q
  | _ => False
  end.
Proof.
  intros rs s E. pose proof (new_syntax_cases rs) as H. rewrite E in H. destruct H as (Er & Hm & Hn & Hc & Hd).
  split; [exact Er|]. split; [intros i; unfold syntax_rule; rewrite Er; reflexivity|].
  intros q. unfold get_syntax_rule, canonical_name. pose proof (maps_index _ _ _ Hm q) as Hi. destruct (Hm (keyed q)) as (H1 & H2).
  destruct (lookup (keyed q) (sy_index s)) as [i|] eqn:Ei.
  - destruct (H1 i eq_refl) as (Hlt & r & Hr & Hk & Hname). rewrite Er, Hr. split; [exact Hname|]. exists i. split; [exact Hr|].
    intros j r' Hr'. rewrite same_name_keyed. split.
    + intros Ek. pose proof (maps_unique rs (length rs) _ _ (keyed q) j r' Hm) as U. rewrite firstn_all in U.
      assert (lookup (keyed q) (sy_index s) = Some j); [|congruence]. apply U; auto. apply nth_error_Some. congruence.
    + intros ->. congruence.
  - destruct (H2 eq_refl) as (Hname & _). split; [exact Hname|]. intros H. apply Hi in H as (a & H). congruence.
Qed.
Lemma lexed_no_panic : forall name s rs p, parse_str name s = Ok rs -> new_syntax rs <> Panic p /\ new_syntax rs <> OutOfFuel.
Proof.
  intros name s rs p H. apply parse_wf in H. pose proof (new_syntax_cases rs) as K.
  split; intros E; rewrite E in K; [|exact K]. destruct K as (_ & i & r & Hr & Hu & _). apply Hu.
  rewrite Forall_forall in H. apply name_ok_canonical. apply (H r). eapply nth_error_In. exact Hr.
Qed.
