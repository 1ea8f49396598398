(** The markable reader refines the cursor. *)
From Coq Require Import String List NArith Arith Bool Lia Sorted.
From Verif Require Import Base Io SpecText SpecIo TextFacts TokRun.
Import ListNotations.
Open Scope nat_scope.

Lemma src_chunks_concat : forall cs, concat (src_chunks cs) = concat cs.
Proof. induction cs as [|[|c s] cs IH]; cbn; auto. Qed.
Lemma src_chunks_head : forall cs c r, src_chunks cs = c :: r -> c <> [].
Proof. induction cs as [|[|x s] cs IH]; cbn; intros c r H; try discriminate; eauto. injection H as <- _. discriminate. Qed.

(** Running one operation of the model. *)
Definition lift {A} (f : A -> answer) (x : res A * mreader) : res answer * mreader :=
  let '(a, r) := x in
  (match a with Ok s => Ok (f s) | Err e => Ok (AFail e) | Panic p => Panic p | OutOfFuel => OutOfFuel end, r).
Definition perform1 (debug : bool) (o : op) (r : mreader) : res answer * mreader :=
  match o with
  | ORead n => lift AText (m_read_chars debug n r)
  | OMark => lift AId (m_mark debug r)
  | OReset m => lift ACount (m_reset m r)
  | OUnmark m => lift (fun _ => ADone) (m_unmark m r)
  | OLocation => lift AWhere (m_location r)
  | OIsEof => lift ABool (m_is_eof debug r)
  | OPrefix s => lift ABool (m_prefix_matches debug s r)
  | OPeek n => lift AText (m_peek debug n r)
  | OSkip n => lift ACount (m_skip debug n r)
  | OReadAll =>
      lift AText (m_read_all debug (S (length (ub_buf (mr_ub r)) + length (concat (s_chunks (mr_src r))))) r)
  end.
(** A history, stopping when an operation does not return. *)
Fixpoint perform (debug : bool) (os : list op) (r : mreader) : list answer * option (res answer) * mreader :=
  match os with
  | [] => ([], None, r)
  | o :: os =>
      match perform1 debug o r with
      | (Ok a, r1) => let '(l, e, r2) := perform debug os r1 in (a :: l, e, r2)
      | (x, r1) => ([], Some x, r1)
      end
  end.

Lemma mbind_ok : forall {A B} (m : M A) (f : A -> M B) r a r', m r = (Ok a, r') -> mbind m f r = f a r'.
Proof. intros. unfold mbind. rewrite H. reflexivity. Qed.
Lemma mbind_err : forall {A B} (m : M A) (f : A -> M B) r e r', m r = (Err e, r') -> mbind m f r = (Err e, r').
Proof. intros. unfold mbind. rewrite H. reflexivity. Qed.
Lemma mbind_panic : forall {A B} (m : M A) (f : A -> M B) r e r', m r = (Panic e, r') -> mbind m f r = (Panic e, r').
Proof. intros. unfold mbind. rewrite H. reflexivity. Qed.
Lemma mbind_fuel : forall {A B} (m : M A) (f : A -> M B) r r', m r = (OutOfFuel, r') -> mbind m f r = (OutOfFuel, r').
Proof. intros. unfold mbind. rewrite H. reflexivity. Qed.

Section Rep.
Variable T : str.
Variable E : option error.
Variable l0 : location.
Definition loc_at (p : nat) : location := loc_push_str l0 (firstn p T).
Definition mark_of (mp : N * nat) : N * location := (fst mp, loc_at (snd mp)).
Definition older (a b : N * nat) : Prop := snd b <= snd a.
Record rep_at (base : nat) (r : mreader) (c : cursor) : Prop := Rep {
  rp_end : s_end (mr_src r) = E;
  rp_pos : c_pos c = base + ub_next (mr_ub r);
  rp_next : ub_next (mr_ub r) <= length (ub_buf (mr_ub r));
  rp_rest : skipn (ub_next (mr_ub r)) (ub_buf (mr_ub r)) ++ concat (s_chunks (mr_src r)) = skipn (c_pos c) T;
  rp_len : c_pos c <= length T;
  rp_loc : ub_loc (mr_ub r) = loc_at (c_pos c);
  rp_stack : ub_stack (mr_ub r) = map mark_of (c_marks c);
  rp_marks : Forall (fun mp => base <= snd mp /\ snd mp <= c_pos c /\
     fst mp = (ub_head (mr_ub r) + N.of_nat (snd mp - base))%N /\
     skipn (snd mp - base) (ub_buf (mr_ub r)) ++ concat (s_chunks (mr_src r)) = skipn (snd mp) T) (c_marks c);
  rp_sorted : StronglySorted older (c_marks c) }.
Definition rep (r : mreader) (c : cursor) : Prop := exists base, rep_at base r c.

Lemma at_pos_loc : forall p, at_pos T l0 p (loc_at p).
Proof. intros p. apply reaches_push. reflexivity. Qed.
Lemma skipn_skipn' : forall {A} n m (l : list A), skipn n (skipn m l) = skipn (m + n) l.
Proof. intros A n m. induction m as [|m IH]; intros l; [reflexivity|]. destruct l; [destruct n; reflexivity|]. apply IH. Qed.
Lemma firstn_add : forall {A} p k (l : list A), firstn (p + k) l = firstn p l ++ firstn k (skipn p l).
Proof. induction p as [|p IH]; intros k l; [reflexivity|]. destruct l; [destruct k; reflexivity|]. cbn. rewrite IH. reflexivity. Qed.
Lemma loc_at_add : forall p s rest, skipn p T = s ++ rest -> loc_at (p + length s) = loc_push_str (loc_at p) s.
Proof.
  intros p s rest H. unfold loc_at. rewrite firstn_add, H, firstn_app, Nat.sub_diag, firstn_O, app_nil_r, firstn_all.
  apply push_str_app.
Qed.
Lemma skipn_step : forall p s rest, skipn p T = s ++ rest -> skipn (p + length s) T = rest.
Proof.
  intros p s rest H. rewrite <- skipn_skipn', H, skipn_app, Nat.sub_diag, skipn_all. reflexivity.
Qed.
Lemma pos_step : forall p s rest, skipn p T = s ++ rest -> p <= length T -> p + length s <= length T.
Proof.
  intros p s rest H Hp. assert (L : length (skipn p T) = length s + length rest) by (rewrite H; apply app_length).
  rewrite skipn_length in L. lia.
Qed.

(** Where the debug assertion of [append] can fire, and the states that cannot get
    there without an unmark. *)
Definition hazard (u : ubuf) : Prop := ub_stack u = [] /\ ub_remains u = false /\ ub_buf u <> [].
Definition calm (u : ubuf) : Prop :=
  match rev (ub_stack u) with
  | [] => ub_remains u = true \/ ub_buf u = []
  | (p, _) :: _ => N.to_nat (p - ub_head u) < length (ub_buf u) \/ p = ub_head u
  end.
Lemma calm_no_hazard : forall u, calm u -> ~ hazard u.
Proof. intros u C (H1 & H2 & H3). unfold calm in C. rewrite H1 in C. cbn [rev] in C. destruct C; congruence. Qed.
Lemma calm_grow : forall u u', ub_stack u <> [] -> ub_stack u' = ub_stack u -> ub_head u' = ub_head u ->
  length (ub_buf u) <= length (ub_buf u') -> calm u -> calm u'.
Proof.
  intros u u' H0 H1 H2 H3 C. unfold calm in *. rewrite H1, H2. destruct (rev (ub_stack u)) as [|(p & l) rs] eqn:Er.
  - apply (f_equal (@rev _)) in Er. rewrite rev_involutive in Er. contradiction.
  - destruct C; [left; lia|right; assumption].
Qed.

Lemma push_str_length_nil : forall s : str, length s = 0 -> s = [].
Proof. destruct s; [reflexivity|discriminate]. Qed.

Inductive read_result (debug : bool) (n : nat) (r : mreader) (c : cursor) : res str * mreader -> Prop :=
| rr_some : forall s rest r', s <> [] -> length s <= n -> skipn (c_pos c) T = s ++ rest ->
    rep r' (Cur (c_pos c + length s) (c_marks c)) ->
    (calm (mr_ub r) -> calm (mr_ub r')) ->
    read_result debug n r c (Ok s, r')
| rr_zero : forall r', n = 0 -> rep r' c -> mr_ub r' = mr_ub r -> read_result debug n r c (Ok [], r')
| rr_end : forall r', skipn (c_pos c) T = [] -> E = None -> rep r' c -> mr_ub r' = mr_ub r ->
    read_result debug n r c (Ok [], r')
| rr_fail : forall r' e, skipn (c_pos c) T = [] -> E = Some e -> rep r' c -> mr_ub r' = mr_ub r ->
    read_result debug n r c (Err (Error_ (loc_at (c_pos c)) (MWrapped (e_loc e) (e_msg e))), r')
| rr_panic : forall r', debug = true -> hazard (mr_ub r) -> read_result debug n r c (Panic PDebugAssert, r').

Lemma rep_same_ub : forall base r r' c, rep_at base r c -> mr_ub r' = mr_ub r -> s_end (mr_src r') = s_end (mr_src r) ->
  concat (s_chunks (mr_src r')) = concat (s_chunks (mr_src r)) -> rep_at base r' c.
Proof.
  intros base r r' c [H1 H2 H3 H4 H5 H6 H7 H8 H9] Hu He Hc. constructor; rewrite ?Hu, ?He, ?Hc; auto.
Qed.
Lemma firstn_length_split : forall {A} n (l : list A), l = firstn (length (firstn n l)) l ++ skipn n l.
Proof.
  intros A n l. rewrite <- (firstn_skipn n l) at 1. f_equal. rewrite firstn_length.
  destruct (Nat.min_spec n (length l)) as [(_ & ->)|(H & ->)]; [reflexivity|]. rewrite firstn_all. apply firstn_all2. exact H.
Qed.

Lemma rep_read : forall debug n r c, rep r c -> read_result debug n r c (m_read_chars debug n r).
Proof.
  intros debug n r c (base & R). pose proof R as [H1 H2 H3 H4 H5 H6 H7 H8 H9]. unfold m_read_chars.
  destruct (ub_remains (mr_ub r)) eqn:Er.
  - (* from the buffer *)
    unfold ub_remains in Er. apply Nat.ltb_lt in Er.
    unfold ub_read. set (out := firstn n (skipn (ub_next (mr_ub r)) (ub_buf (mr_ub r)))).
    destruct (Nat.eq_dec n 0) as [->|Hn].
    { (* nothing asked *)
      assert (out = []) as -> by reflexivity. cbn [length]. rewrite Nat.add_0_r.
      replace (ub_remains (UB (ub_loc (mr_ub r)) (ub_buf (mr_ub r)) (ub_next (mr_ub r)) (ub_head (mr_ub r)) (ub_stack (mr_ub r)))) with true.
      2:{ symmetry. apply Nat.ltb_lt. exact Er. }
      cbn [ub_loc ub_buf ub_next ub_head ub_stack loc_push_str fold_left].
      apply rr_zero; [reflexivity|exists base; destruct r as [sr [? ? ? ? ?]]; exact R|destruct r as [sr [? ? ? ? ?]]; reflexivity]. }
    assert (Hsk : skipn (ub_next (mr_ub r)) (ub_buf (mr_ub r)) <> []).
    { intros Z. apply (f_equal (@length _)) in Z. rewrite skipn_length in Z. cbn in Z. lia. }
    assert (Hne : out <> []).
    { unfold out. destruct (skipn (ub_next (mr_ub r)) (ub_buf (mr_ub r))); [congruence|]. destruct n; [congruence|discriminate]. }
    assert (Hle : length out <= n) by (unfold out; rewrite firstn_length; lia).
    assert (Hbuf : skipn (ub_next (mr_ub r)) (ub_buf (mr_ub r)) = out ++ skipn (ub_next (mr_ub r) + length out) (ub_buf (mr_ub r))).
    { rewrite <- skipn_skipn'. unfold out at 1 2. rewrite <- (firstn_skipn n (skipn (ub_next (mr_ub r)) (ub_buf (mr_ub r)))) at 1. f_equal.
      rewrite firstn_length. destruct (Nat.min_spec n (length (skipn (ub_next (mr_ub r)) (ub_buf (mr_ub r))))) as [(_ & ->)|(Hl & ->)]; [reflexivity|].
      rewrite skipn_all2, skipn_all by exact Hl. reflexivity. }
    assert (Hpos : skipn (c_pos c) T = out ++ skipn (ub_next (mr_ub r) + length out) (ub_buf (mr_ub r)) ++ concat (s_chunks (mr_src r))).
    { rewrite <- H4, Hbuf at 1. rewrite <- app_assoc. reflexivity. }
    assert (Hnl : ub_next (mr_ub r) + length out <= length (ub_buf (mr_ub r))).
    { apply (f_equal (@length _)) in Hbuf. rewrite app_length, !skipn_length in Hbuf. lia. }
    assert (Hmarks : Forall (fun mp => base <= snd mp /\ snd mp <= c_pos c + length out /\
       fst mp = (ub_head (mr_ub r) + N.of_nat (snd mp - base))%N /\
       skipn (snd mp - base) (ub_buf (mr_ub r)) ++ concat (s_chunks (mr_src r)) = skipn (snd mp) T) (c_marks c)).
    { eapply Forall_impl; [|exact H8]. cbn. intros a (? & ? & ? & ?). repeat split; auto. lia. }
    set (u1 := UB (ub_loc (mr_ub r)) (ub_buf (mr_ub r)) (ub_next (mr_ub r) + length out) (ub_head (mr_ub r)) (ub_stack (mr_ub r))).
    destruct (ub_remains u1) eqn:Er1.
    + eapply rr_some; [exact Hne|exact Hle|exact Hpos| |]; cbn [mr_ub ub_stack ub_head ub_buf u1].
      * exists base. constructor; cbn [mr_ub mr_src ub_loc ub_buf ub_next ub_head ub_stack c_pos c_marks u1]; auto.
        -- lia.
        -- symmetry. exact (skipn_step _ _ _ Hpos).
        -- exact (pos_step _ _ _ Hpos H5).
        -- rewrite (loc_at_add _ _ _ Hpos), <- H6. reflexivity.
      * unfold calm. cbn [ub_stack ub_head ub_buf u1]. intros C. destruct (rev (ub_stack (mr_ub r))); [left; exact Er1|exact C].
    + apply Nat.ltb_ge in Er1. cbn [u1 ub_next ub_buf] in Er1.
      assert (Hfull : ub_next (mr_ub r) + length out = length (ub_buf (mr_ub r))) by lia.
      unfold ub_truncate. cbn [u1 ub_stack]. destruct (ub_stack (mr_ub r)) as [|top below] eqn:Es.
      * assert (c_marks c = []) as Hmk by (destruct (c_marks c); [reflexivity|discriminate]).
        eapply rr_some; [exact Hne|exact Hle|exact Hpos| |]; cbn [mr_ub ub_stack ub_head ub_buf ub_loc ub_next u1].
        -- exists (c_pos c + length out). constructor; cbn [mr_ub mr_src ub_loc ub_buf ub_next ub_head ub_stack c_pos c_marks u1]; auto.
           ++ rewrite (skipn_step _ _ _ Hpos), Hfull, skipn_all. reflexivity.
           ++ exact (pos_step _ _ _ Hpos H5).
           ++ rewrite (loc_at_add _ _ _ Hpos), <- H6. reflexivity.
           ++ rewrite Hmk. constructor.
        -- intros _. right. reflexivity.
      * eapply rr_some; [exact Hne|exact Hle|exact Hpos| |]; cbn [mr_ub ub_stack ub_head ub_buf ub_loc ub_next u1].
        -- exists base. constructor; cbn [mr_ub mr_src ub_loc ub_buf ub_next ub_head ub_stack c_pos c_marks u1]; auto.
           ++ lia.
           ++ symmetry. exact (skipn_step _ _ _ Hpos).
           ++ exact (pos_step _ _ _ Hpos H5).
           ++ rewrite (loc_at_add _ _ _ Hpos), <- H6. reflexivity.
        -- apply calm_grow; cbn; auto. congruence.
  - (* from the source *)
    apply Nat.ltb_ge in Er. assert (Hfull : ub_next (mr_ub r) = length (ub_buf (mr_ub r))) by lia.
    rewrite Hfull, skipn_all in H4. cbn [app] in H4.
    unfold src_read. pose proof (src_chunks_concat (s_chunks (mr_src r))) as Hc.
    destruct (src_chunks (s_chunks (mr_src r))) as [|ch cs] eqn:Ech.
    + cbn in Hc. rewrite <- Hc in H4.
      assert (R' : rep (MR (Src [] (s_end (mr_src r))) (mr_ub r)) c).
      { exists base. eapply rep_same_ub; [exact R|reflexivity|reflexivity|]. cbn. exact Hc. }
      rewrite H1. destruct E as [e|] eqn:EE.
      * rewrite H6. apply rr_fail; auto. rewrite H1 in R'. exact R'.
      * apply rr_end; auto. rewrite H1 in R'. exact R'.
    + pose proof (src_chunks_head _ _ _ Ech) as Hch. rewrite <- Hc in H4. cbn [concat] in H4.
      set (out := firstn n ch). destruct out as [|x0 out0] eqn:Eout.
      * assert (n = 0). { destruct n; [reflexivity|]. unfold out in Eout. destruct ch; [congruence|discriminate]. }
        apply rr_zero; [assumption| |reflexivity]. exists base. eapply rep_same_ub; [exact R|reflexivity|reflexivity|].
        cbn. subst n. cbn. exact Hc.
      * rewrite <- Eout in *.
        assert (Hne : out <> []) by (rewrite Eout; discriminate).
        assert (Hle : length out <= n) by (unfold out; rewrite firstn_length; lia).
        assert (Hsplit : ch = out ++ skipn n ch) by (unfold out; symmetry; apply firstn_skipn).
        assert (Hpos : skipn (c_pos c) T = out ++ skipn n ch ++ concat cs).
        { rewrite <- H4. rewrite Hsplit at 1. rewrite <- app_assoc. reflexivity. }
        clearbody out. unfold ub_append. destruct (ub_stack (mr_ub r)) as [|top below] eqn:Es.
        -- assert (c_marks c = []) as Hmk by (destruct (c_marks c); [reflexivity|discriminate]).
           match goal with |- context [if ?b then _ else _] => destruct b eqn:Ed end.
           ++ apply andb_true_iff in Ed as (-> & Ed). apply rr_panic; [reflexivity|].
              split; [exact Es|]. split; [apply Nat.ltb_ge; lia|]. intros Z. rewrite Z in Ed. cbn in Ed.
              rewrite Hfull, Z in Ed. discriminate.
           ++ eapply rr_some; [exact Hne|exact Hle|exact Hpos| |]; cbn [mr_ub ub_stack ub_head ub_buf ub_loc ub_next].
              ** exists (base + length out). constructor; cbn [mr_ub mr_src ub_loc ub_buf ub_next ub_head ub_stack c_pos c_marks s_chunks s_end]; auto.
                 --- lia.
                 --- rewrite (skipn_step _ _ _ Hpos), Hfull, skipn_all. reflexivity.
                 --- exact (pos_step _ _ _ Hpos H5).
                 --- rewrite (loc_at_add _ _ _ Hpos), <- H6. reflexivity.
                 --- rewrite Hmk. constructor.
              ** unfold calm. rewrite Es. cbn. intros C. exact C.
        -- replace (debug && ub_remains (mr_ub r)) with false.
           2:{ unfold ub_remains. replace (ub_next (mr_ub r) <? length (ub_buf (mr_ub r))) with false; [destruct debug; reflexivity|].
               symmetry. apply Nat.ltb_ge. lia. }
           eapply rr_some; [exact Hne|exact Hle|exact Hpos| |]; cbn [mr_ub ub_stack ub_head ub_buf ub_loc ub_next].
           ++ exists base. constructor; cbn [mr_ub mr_src ub_loc ub_buf ub_next ub_head ub_stack c_pos c_marks s_chunks s_end concat]; auto.
              ** lia.
              ** rewrite app_length. lia.
              ** rewrite (skipn_step _ _ _ Hpos), Hfull, <- (app_length (ub_buf (mr_ub r)) out), skipn_all. reflexivity.
              ** exact (pos_step _ _ _ Hpos H5).
              ** rewrite (loc_at_add _ _ _ Hpos), <- H6. reflexivity.
              ** rewrite Forall_forall in *. intros mp Hmp. destruct (H8 mp Hmp) as (B1 & B2 & B3 & B4).
                 split; [exact B1|]. split; [lia|]. split; [exact B3|]. rewrite <- B4, <- Hc. cbn [concat].
                 rewrite skipn_app. replace (snd mp - base - length (ub_buf (mr_ub r))) with 0 by lia. cbn [skipn].
                 rewrite <- app_assoc. f_equal. rewrite app_assoc. rewrite <- Hsplit. reflexivity.
           ++ apply calm_grow; cbn; auto; [congruence|]. rewrite app_length. lia.
Qed.

(** Marking. *)
Lemma rep_mark : forall debug r c, rep r c ->
  exists m r', m_mark debug r = (Ok m, r') /\ cstep T E l0 c OMark (AId m) (Cur (c_pos c) ((m, c_pos c) :: c_marks c)) /\
    rep r' (Cur (c_pos c) ((m, c_pos c) :: c_marks c)) /\ (calm (mr_ub r) -> calm (mr_ub r')) /\
    ub_stack (mr_ub r') <> [].
Proof.
  intros debug r c (base & [H1 H2 H3 H4 H5 H6 H7 H8 H9]). unfold m_mark, with_ub, ub_mark.
  replace (match ub_stack (mr_ub r) with [] => true | (p, _) :: _ => (p <=? ub_position (mr_ub r))%N end) with true.
  2:{ rewrite H7. destruct (c_marks c) as [|(m & p) ms]; [reflexivity|]. cbn. symmetry. apply N.leb_le.
      apply Forall_inv in H8 as (B1 & B2 & B3 & _). cbn in B1, B2, B3. unfold ub_position. lia. }
  rewrite andb_false_r. eexists _, _. split; [reflexivity|]. split; [|split; [|split]].
  - constructor. intros m' p Hin. rewrite Forall_forall in H8. destruct (H8 _ Hin) as (B1 & B2 & B3 & _).
    cbn in B1, B2, B3. unfold ub_position. lia.
  - exists base. constructor; cbn [mr_ub mr_src ub_loc ub_buf ub_next ub_head ub_stack c_pos c_marks]; auto.
    + cbn [map]. rewrite H7. unfold mark_of at 2. cbn. rewrite H6. reflexivity.
    + constructor; [|exact H8]. cbn. split; [lia|]. split; [lia|]. unfold ub_position.
      replace (c_pos c - base) with (ub_next (mr_ub r)) by lia. split; [reflexivity|exact H4].
    + constructor; [exact H9|]. apply Forall_forall. intros mp Hin. rewrite Forall_forall in H8.
      apply (H8 _ Hin).
  - unfold calm. cbn [mr_ub ub_stack ub_head ub_buf rev]. destruct (rev (ub_stack (mr_ub r))) as [|(p & l) rs]; cbn [app].
    + unfold ub_position. intros [C|C].
      * left. unfold ub_remains in C. apply Nat.ltb_lt in C. lia.
      * right. rewrite C in H3. cbn in H3. lia.
    + exact (fun C => C).
  - discriminate.
Qed.

(** Looking a mark up. *)
Lemma find_mark_ok : forall ms m, StronglySorted (fun a b : N * nat => (fst b <= fst a)%N) ms ->
  match find_mark m (map mark_of ms) with
  | Some (l, below) => exists newer p older, ms = newer ++ (m, p) :: older /\ ~ In m (map fst newer) /\
      l = loc_at p /\ below = map mark_of older
  | None => ~ In m (map fst ms)
  end.
Proof.
  induction ms as [|(i & p) ms IH]; intros m Hs; cbn; [intros []|].
  destruct (N.eqb_spec i m) as [->|Hi].
  - exists [], p, ms. repeat split. intros [].
  - apply StronglySorted_inv in Hs as (Hs & Hh). destruct (N.ltb_spec i m) as [Hl|Hl].
    + intros [Z|Z]; [congruence|]. apply in_map_iff in Z as (mp & <- & Hin). rewrite Forall_forall in Hh.
      specialize (Hh _ Hin). cbn in Hh. lia.
    + specialize (IH m Hs). destruct (find_mark m (map mark_of ms)) as [(l & below)|].
      * destruct IH as (newer & q & older & -> & Hn & -> & ->). exists ((i, p) :: newer), q, older.
        split; [reflexivity|]. split; [cbn; intros [Z|Z]; [congruence|auto]|]. auto.
      * intros [Z|Z]; [congruence|auto].
Qed.
Lemma sorted_ids : forall base r c, rep_at base r c -> StronglySorted (fun a b : N * nat => (fst b <= fst a)%N) (c_marks c).
Proof.
  intros base r c [H1 H2 H3 H4 H5 H6 H7 H8 H9]. clear H7. induction (c_marks c) as [|a ms IH]; [constructor|].
  apply StronglySorted_inv in H9 as (H9 & Ho). pose proof (Forall_inv H8) as (A1 & A2 & A3 & _).
  apply Forall_inv_tail in H8. constructor; [auto|].
  rewrite Forall_forall in *. intros b Hb. destruct (H8 b Hb) as (B1 & B2 & B3 & _). specialize (Ho b Hb).
  unfold older in Ho. lia.
Qed.
Lemma rep_remove : forall base r c m, rep_at base r c ->
  match ub_remove_mark m (mr_ub r) with
  | Ok (l, u') => exists newer p below, c_marks c = newer ++ (m, p) :: below /\ ~ In m (map fst newer) /\
      l = loc_at p /\ u' = UB (ub_loc (mr_ub r)) (ub_buf (mr_ub r)) (ub_next (mr_ub r)) (ub_head (mr_ub r)) (map mark_of below)
  | Err e => ~ In m (map fst (c_marks c)) /\ e_loc e = loc_at (c_pos c)
  | _ => False
  end.
Proof.
  intros base r c m R. pose proof R as [H1 H2 H3 H4 H5 H6 H7 H8 H9]. unfold ub_remove_mark.
  destruct (N.ltb m (ub_head (mr_ub r)) || N.ltb (ub_head (mr_ub r) + N.of_nat (length (ub_buf (mr_ub r)))) m)%bool eqn:Eb.
  - split; [|exact H6]. intros Z. apply in_map_iff in Z as (mp & <- & Hin). rewrite Forall_forall in H8.
    destruct (H8 _ Hin) as (B1 & B2 & B3 & _). apply orb_true_iff in Eb as [Eb|Eb]; apply N.ltb_lt in Eb; lia.
  - rewrite H7. pose proof (find_mark_ok (c_marks c) m (sorted_ids _ _ _ R)) as F.
    destruct (find_mark m (map mark_of (c_marks c))) as [(l & below)|].
    + destruct F as (newer & p & below' & F1 & F2 & F3 & ->). exists newer, p, below'. auto.
    + split; [exact F|exact H6].
Qed.
Lemma sorted_below : forall {A} (R : A -> A -> Prop) a b, StronglySorted R (a ++ b) -> StronglySorted R b.
Proof. induction a as [|x a IH]; intros b H; [exact H|]. apply IH. apply StronglySorted_inv in H. tauto. Qed.
Lemma calm_below : forall newer m l below u (loc : location) next,
  ub_stack u = newer ++ (m, l) :: below -> calm u -> next = N.to_nat (m - ub_head u) ->
  (ub_head u <= m)%N -> calm (UB loc (ub_buf u) next (ub_head u) below).
Proof.
  intros newer m l below u loc next Hs C Hn Hm. unfold calm in *. rewrite Hs, rev_app_distr in C. cbn [rev] in C. cbn [ub_stack].
  destruct (rev below) as [|(q & k) rs]; [|exact C]. cbn [app] in C. unfold ub_remains. cbn [ub_next ub_buf].
  destruct C as [C|C].
  - left. apply Nat.ltb_lt. lia.
  - subst m. destruct (ub_buf u); [right; reflexivity|left]. apply Nat.ltb_lt. cbn. lia.
Qed.
Lemma rep_reset : forall m r c, rep r c -> exists a r' c', lift ACount (m_reset m r) = (Ok a, r') /\
  cstep T E l0 c (OReset m) a c' /\ rep r' c' /\ (calm (mr_ub r) -> calm (mr_ub r')).
Proof.
  intros m r c (base & R). pose proof R as [H1 H2 H3 H4 H5 H6 H7 H8 H9].
  unfold m_reset, with_ub, ub_revert. pose proof (rep_remove base r c m R) as Q.
  destruct (ub_remove_mark m (mr_ub r)) as [(l & u')|e|p|]; try contradiction; cbn [bind].
  - destruct Q as (newer & p & below & Q1 & Q2 & -> & ->). unfold ub_position. cbn [ub_head ub_next ub_stack ub_buf].
    rewrite Q1 in H8, H9. rewrite Forall_app in H8. destruct H8 as (_ & H8).
    pose proof (Forall_inv H8) as (B1 & B2 & B3 & B4). apply Forall_inv_tail in H8. cbn [fst snd] in B1, B2, B3, B4.
    apply sorted_below in H9. apply StronglySorted_inv in H9 as (H9 & Ho).
    replace (N.ltb m (ub_head (mr_ub r)) || N.ltb (ub_head (mr_ub r) + N.of_nat (ub_next (mr_ub r))) m)%bool with false.
    2:{ symmetry. apply orb_false_iff. split; apply N.ltb_ge; lia. }
    eexists _, _, (Cur p below). split; [reflexivity|]. split; [|split].
    + eapply cs_reset; [exact Q1|exact Q2|]. lia.
    + exists base. replace (N.to_nat (m - ub_head (mr_ub r))) with (p - base) by lia.
      constructor; cbn [mr_ub mr_src ub_loc ub_buf ub_next ub_head ub_stack c_pos c_marks]; auto; try lia.
      rewrite Forall_forall in *. intros mp Hin. destruct (H8 _ Hin) as (C1 & C2 & C3 & C4).
      specialize (Ho _ Hin). cbn in Ho. auto.
    + cbn [mr_ub]. intros C. eapply (calm_below (map mark_of newer) m (loc_at p)); [|exact C|reflexivity|lia].
      rewrite H7, Q1, map_app. reflexivity.
  - destruct Q as (Q1 & Q2). eexists _, _, c. split; [reflexivity|]. split; [|split].
    + apply cs_no_such_mark with (m := m); auto. rewrite Q2. apply at_pos_loc.
    + exists base. exact R.
    + auto.
Qed.
Lemma rep_unmark : forall m r c, rep r c -> exists a r' c', lift (fun _ => ADone) (m_unmark m r) = (Ok a, r') /\
  cstep T E l0 c (OUnmark m) a c' /\ rep r' c'.
Proof.
  intros m r c (base & R). pose proof R as [H1 H2 H3 H4 H5 H6 H7 H8 H9].
  unfold m_unmark, with_ub. pose proof (rep_remove base r c m R) as Q.
  destruct (ub_remove_mark m (mr_ub r)) as [(l & u')|e|p|]; try contradiction; cbn [bind].
  - destruct Q as (newer & p & below & Q1 & Q2 & -> & ->).
    rewrite Q1 in H8, H9. rewrite Forall_app in H8. destruct H8 as (_ & H8). apply Forall_inv_tail in H8.
    apply sorted_below in H9. apply StronglySorted_inv in H9 as (H9 & Ho).
    eexists _, _, (Cur (c_pos c) below). split; [reflexivity|]. split.
    + eapply cs_unmark; [exact Q1|exact Q2].
    + exists base. constructor; cbn [mr_ub mr_src ub_loc ub_buf ub_next ub_head ub_stack c_pos c_marks]; auto.
  - destruct Q as (Q1 & Q2). eexists _, _, c. split; [reflexivity|]. split.
    + apply cs_no_such_mark with (m := m); auto. rewrite Q2. apply at_pos_loc.
    + exists base. exact R.
Qed.

(** Reading in states where the assertion cannot fire. *)
Definition safe (debug : bool) (u : ubuf) : Prop := debug = false \/ ~ hazard u.
Lemma safe_marked : forall debug u, ub_stack u <> [] -> safe debug u.
Proof. intros debug u H. right. intros (Z & _). contradiction. Qed.
Lemma safe_marks : forall debug r c, rep r c -> c_marks c <> [] -> safe debug (mr_ub r).
Proof.
  intros debug r c (b & R) H. apply safe_marked. rewrite (rp_stack _ _ _ R). destruct (c_marks c); [contradiction|discriminate].
Qed.
Lemma safe_calm : forall debug u, calm u -> safe debug u.
Proof. intros debug u C. right. apply calm_no_hazard. exact C. Qed.
Lemma no_hazard_calm : forall u, ub_stack u = [] -> ~ hazard u -> calm u.
Proof.
  intros u Hs H. unfold calm. rewrite Hs. cbn [rev]. destruct (ub_remains u) eqn:Er; [left; reflexivity|right].
  destruct (ub_buf u) eqn:Eb; [reflexivity|]. exfalso. apply H. split; [exact Hs|]. split; [exact Er|]. rewrite Eb. discriminate.
Qed.
Lemma safe_step : forall debug r c r' c', rep r c -> rep r' c' -> c_marks c' = c_marks c ->
  (calm (mr_ub r) -> calm (mr_ub r')) -> safe debug (mr_ub r) -> safe debug (mr_ub r').
Proof.
  intros debug r c r' c' R (b' & R') Hm Hc [S|S]; [left; exact S|].
  destruct (c_marks c) as [|m ms] eqn:Em.
  - apply safe_calm, Hc, no_hazard_calm; [|exact S]. destruct R as (b & R). rewrite (rp_stack _ _ _ R), Em. reflexivity.
  - apply safe_marked. rewrite (rp_stack _ _ _ R'), Hm. discriminate.
Qed.
Definition fail_at (p : nat) (e : error) : error := Error_ (loc_at p) (MWrapped (e_loc e) (e_msg e)).
Definition char_at (p : nat) : res (option char) :=
  match skipn p T with
  | c :: _ => Ok (Some c)
  | [] => match E with None => Ok None | Some e => Err (fail_at p e) end
  end.
Lemma rep_read1 : forall debug r c, rep r c -> safe debug (mr_ub r) ->
  exists r', m_read debug r = (char_at (c_pos c), r') /\
    rep r' (Cur (c_pos c + match char_at (c_pos c) with Ok (Some _) => 1 | _ => 0 end) (c_marks c)) /\
    (calm (mr_ub r) -> calm (mr_ub r')) /\ safe debug (mr_ub r').
Proof.
  intros debug r c R S. unfold m_read, mbind, ret, char_at.
  destruct (rep_read debug 1 r c R) as [s rest r' K1 K2 K3 K4 K5|r' K1 K2 K3|r' K1 K2 K3 K4|r' e K1 K2 K3 K4|r' K1 K2].
  - destruct s as [|x [|y s]]; cbn in K2; [contradiction| |lia]. rewrite K3. cbn.
    exists r'. split; [reflexivity|]. split; [exact K4|]. split; [exact K5|].
    eapply safe_step; [exact R|exact K4|reflexivity|exact K5|exact S].
  - discriminate.
  - rewrite K1, K2. cbn. exists r'. split; [reflexivity|]. rewrite Nat.add_0_r. destruct c. split; [exact K3|]. rewrite K4. auto.
  - rewrite K1, K2. cbn. exists r'. split; [reflexivity|]. rewrite Nat.add_0_r. destruct c. split; [exact K3|]. rewrite K4. auto.
  - destruct S as [->|S]; [discriminate|contradiction].
Qed.
(** Reading under a mark and coming back. *)
Lemma rep_reset_top : forall r p m q ms, rep r (Cur p ((m, q) :: ms)) ->
  exists r', m_reset m r = (Ok (p - q), r') /\ rep r' (Cur q ms) /\ (calm (mr_ub r) -> calm (mr_ub r')) /\ q <= p /\
    (q < p -> ub_remains (mr_ub r') = true).
Proof.
  intros r p m q ms (base & R). pose proof R as [H1 H2 H3 H4 H5 H6 H7 H8 H9]. cbn [c_pos c_marks] in *.
  unfold m_reset, with_ub, ub_revert. pose proof (rep_remove base r _ m R) as Q.
  destruct (ub_remove_mark m (mr_ub r)) as [(l & u')|e|pp|]; try contradiction; cbn [bind].
  2:{ destruct Q as (Q & _). exfalso. apply Q. left. reflexivity. }
  destruct Q as (newer & p' & below & Q1 & Q2 & -> & ->). cbn [c_marks] in Q1.
  destruct newer as [|(i & j) newer]. 2:{ injection Q1 as -> _ _. exfalso. apply Q2. left. reflexivity. }
  injection Q1 as <- <-. unfold ub_position. cbn [ub_head ub_next ub_stack ub_buf].
  pose proof (Forall_inv H8) as (B1 & B2 & B3 & B4). apply Forall_inv_tail in H8. cbn [fst snd] in B1, B2, B3, B4.
  apply StronglySorted_inv in H9 as (H9 & Ho).
  replace (N.ltb m (ub_head (mr_ub r)) || N.ltb (ub_head (mr_ub r) + N.of_nat (ub_next (mr_ub r))) m)%bool with false.
  2:{ symmetry. apply orb_false_iff. split; apply N.ltb_ge; lia. }
  eexists. split; [|split; [|split; [|split]]].
  - f_equal. f_equal. lia.
  - exists base. replace (N.to_nat (m - ub_head (mr_ub r))) with (q - base) by lia.
    constructor; cbn [mr_ub mr_src ub_loc ub_buf ub_next ub_head ub_stack c_pos c_marks]; auto; try lia.
    rewrite Forall_forall in *. intros mp Hin. destruct (H8 _ Hin) as (C1 & C2 & C3 & C4).
    specialize (Ho _ Hin). cbn in Ho. auto.
  - cbn [mr_ub]. intros C. eapply (calm_below [] m (loc_at q)); [|exact C|reflexivity|lia]. exact H7.
  - exact B2.
  - intros Hlt. unfold ub_remains. cbn [mr_ub ub_next ub_buf]. apply Nat.ltb_lt. lia.
Qed.
Lemma rep_bound : forall r c, rep r c -> c_pos c <= length T.
Proof. intros r c (b & R). exact (rp_len _ _ _ R). Qed.
Lemma skipn_cons : forall {A} n (l : list A) x r, skipn n l = x :: r -> skipn (S n) l = r.
Proof. induction n as [|n IH]; intros l x r H; [destruct l; [discriminate|]; injection H as -> ->; reflexivity|]. destruct l; [discriminate|]. cbn in H. exact (IH _ _ _ H). Qed.
Lemma skipn_nil_len : forall {A} n (l : list A), skipn n l = [] -> n <= length l -> n = length l.
Proof. intros A n l H Hl. apply (f_equal (@length _)) in H. rewrite skipn_length in H. cbn in H. lia. Qed.

(** The look-ahead loops on positions. *)
Fixpoint p_prefix (s : str) (p : nat) : res bool * nat :=
  match s with
  | [] => (Ok true, p)
  | a :: s' =>
      match char_at p with
      | Ok (Some c) => if N.eqb c a then p_prefix s' (S p) else (Ok false, S p)
      | Ok None => (Ok false, p)
      | Err e => (Err e, p)
      | Panic x => (Panic x, p)
      | OutOfFuel => (OutOfFuel, p)
      end
  end.
Fixpoint p_peek (n : nat) (p : nat) : res str * nat :=
  match n with
  | O => (Ok [], p)
  | S n' =>
      match char_at p with
      | Ok (Some c) => let '(x, p') := p_peek n' (S p) in ((let? s := x in Ok (c :: s)), p')
      | Ok None => (Ok [], p)
      | Err e => (Err e, p)
      | Panic x => (Panic x, p)
      | OutOfFuel => (OutOfFuel, p)
      end
  end.
Lemma rep_prefix_loop : forall debug s r c, rep r c -> c_marks c <> [] ->
  exists r', m_prefix_loop debug s r = (fst (p_prefix s (c_pos c)), r') /\
    rep r' (Cur (snd (p_prefix s (c_pos c))) (c_marks c)) /\ (calm (mr_ub r) -> calm (mr_ub r')).
Proof.
  intros debug s. induction s as [|a s IH]; intros r c R Hm.
  - exists r. cbn. destruct c. auto.
  - cbn [m_prefix_loop p_prefix]. destruct (rep_read1 debug r c R (safe_marks _ _ _ R Hm)) as (r1 & K1 & K2 & K3 & _).
    unfold mbind at 1. rewrite K1. unfold char_at in *. destruct (skipn (c_pos c) T) as [|x rest] eqn:Es.
    + rewrite Nat.add_comm in K2. destruct E as [e|]; exists r1; cbn in *; auto.
    + destruct (N.eqb x a) eqn:Ea.
      * destruct (IH r1 _ K2 Hm) as (r2 & I1 & I2 & I3). cbn [c_pos c_marks] in I1, I2. rewrite Nat.add_1_r in I1, I2.
        rewrite I1. exists r2. auto.
      * exists r1. rewrite Nat.add_1_r in K2. cbn. auto.
Qed.
Lemma rep_peek_loop : forall debug n r c, rep r c -> c_marks c <> [] ->
  exists r', m_peek_loop debug n r = (fst (p_peek n (c_pos c)), r') /\
    rep r' (Cur (snd (p_peek n (c_pos c))) (c_marks c)) /\ (calm (mr_ub r) -> calm (mr_ub r')).
Proof.
  intros debug n. induction n as [|n IH]; intros r c R Hm.
  - exists r. cbn. destruct c. auto.
  - cbn [m_peek_loop p_peek]. destruct (rep_read1 debug r c R (safe_marks _ _ _ R Hm)) as (r1 & K1 & K2 & K3 & _).
    unfold mbind at 1. rewrite K1. unfold char_at in *. destruct (skipn (c_pos c) T) as [|x rest] eqn:Es.
    + rewrite Nat.add_comm in K2. destruct E as [e|]; exists r1; cbn in *; auto.
    + destruct (IH r1 _ K2 Hm) as (r2 & I1 & I2 & I3). cbn [c_pos c_marks] in I1, I2. rewrite Nat.add_1_r in I1, I2.
      unfold mbind at 1. rewrite I1. destruct (p_peek n (S (c_pos c))) as (y & p'). exists r2. cbn [fst snd] in *.
      destruct y; cbn; auto.
Qed.
Lemma p_prefix_spec : forall s p, p <= length T ->
  (exists rest, skipn p T = s ++ rest /\ p_prefix s p = (Ok true, p + length s)) \/
  (exists q, p <= q /\ p_prefix s p = (Ok false, q) /\ ~ (exists rest, skipn p T = s ++ rest) /\
     (E = None \/ ~ beyond (skipn p T) (OPrefix s))) \/
  (exists e x s', E = Some e /\ s = skipn p T ++ x :: s' /\ p_prefix s p = (Err (fail_at (length T) e), length T)).
Proof.
  induction s as [|a s IH]; intros p Hp.
  - left. exists (skipn p T). rewrite Nat.add_0_r. auto.
  - cbn [p_prefix]. unfold char_at. destruct (skipn p T) as [|x rest] eqn:Es.
    + pose proof (skipn_nil_len _ _ Es Hp) as Hl. destruct E as [e|] eqn:EE.
      * right. right. exists e, a, s. rewrite <- Hl. auto.
      * right. left. exists p. split; [lia|]. split; [reflexivity|]. split; [|left; reflexivity]. intros (w & Hw). discriminate.
    + pose proof (skipn_cons _ _ _ _ Es) as Es1.
      assert (Hp1 : S p <= length T). { apply (f_equal (@length _)) in Es. rewrite skipn_length in Es. cbn in Es. lia. }
      destruct (N.eqb_spec x a) as [->|Hx].
      * destruct (IH (S p) Hp1) as [(w & I1 & I2)|[(q & I0 & I1 & I2 & I3)|(e & y & s' & I1 & I2 & I3)]]; rewrite Es1 in *.
        -- left. exists w. split; [cbn; congruence|]. rewrite I2. f_equal. cbn. lia.
        -- right. left. exists q. split; [lia|]. split; [exact I1|]. split.
           ++ intros (w & Hw). cbn in Hw. apply I2. exists w. congruence.
           ++ destruct I3 as [I3|I3]; [left; exact I3|right]. intros B. apply I3. inversion B; subst. constructor.
        -- right. right. exists e, y, s'. split; [exact I1|]. split; [cbn; congruence|exact I3].
      * right. left. exists (S p). split; [lia|]. split; [reflexivity|]. split.
        -- intros (w & Hw). cbn in Hw. congruence.
        -- right. intros B. inversion B. congruence.
Qed.
Lemma p_peek_spec : forall n p, p <= length T ->
  (E = None \/ n <= length (skipn p T)) /\ p_peek n p = (Ok (firstn n (skipn p T)), p + length (firstn n (skipn p T))) \/
  (exists e, E = Some e /\ length (skipn p T) < n /\ p_peek n p = (Err (fail_at (length T) e), length T)).
Proof.
  induction n as [|n IH]; intros p Hp.
  - left. split; [right; lia|]. cbn. rewrite Nat.add_0_r. reflexivity.
  - cbn [p_peek]. unfold char_at. destruct (skipn p T) as [|x rest] eqn:Es.
    + pose proof (skipn_nil_len _ _ Es Hp) as Hl. destruct E as [e|] eqn:EE.
      * right. exists e. rewrite <- Hl. cbn. split; [reflexivity|]. split; [lia|reflexivity].
      * left. split; [left; reflexivity|]. cbn. rewrite Nat.add_0_r. reflexivity.
    + pose proof (skipn_cons _ _ _ _ Es) as Es1.
      assert (Hp1 : S p <= length T). { apply (f_equal (@length _)) in Es. rewrite skipn_length in Es. cbn in Es. lia. }
      destruct (IH (S p) Hp1) as [(I1 & I2)|(e & I1 & I2 & I3)]; rewrite Es1 in *.
      * left. split; [destruct I1; [left; assumption|right; cbn; lia]|]. rewrite I2. cbn. f_equal. lia.
      * right. exists e. split; [exact I1|]. split; [cbn; lia|]. rewrite I3. reflexivity.
Qed.
Lemma no_beyond_peek : forall rest n, n <= length rest -> ~ beyond rest (OPeek n).
Proof. intros rest n H B. inversion B. lia. Qed.

(** Look-ahead operations. *)
Lemma rep_mark' : forall debug r c, rep r c ->
  exists m r', m_mark debug r = (Ok m, r') /\ (forall m' p, In (m', p) (c_marks c) -> (m' = m <-> p = c_pos c)) /\
    rep r' (Cur (c_pos c) ((m, c_pos c) :: c_marks c)) /\ (calm (mr_ub r) -> calm (mr_ub r')).
Proof.
  intros debug r c R. destruct (rep_mark debug r c R) as (m & r' & K1 & K2 & K3 & K4 & _). exists m, r'.
  split; [exact K1|]. split; [|auto]. inversion K2. assumption.
Qed.
Lemma rep_is_eof : forall debug r c, rep r c ->
  exists a r' c', lift ABool (m_is_eof debug r) = (Ok a, r') /\ cstep T E l0 c OIsEof a c' /\ rep r' c' /\
    (calm (mr_ub r) -> calm (mr_ub r')) /\
    match char_at (c_pos c) with
    | Ok o => m_is_eof debug r = (Ok (match o with None => true | Some _ => false end), r') /\ c' = c
    | Err e => m_is_eof debug r = (Err e, r') /\ exists m, c' = Cur (c_pos c) ((m, c_pos c) :: c_marks c)
    | _ => False
    end.
Proof.
  intros debug r c R. pose proof (rep_bound _ _ R) as Hb. unfold m_is_eof.
  destruct (rep_mark' debug r c R) as (m & r1 & K1 & K2 & K3 & K4).
  rewrite (mbind_ok _ _ _ _ _ K1).
  destruct (rep_read1 debug r1 _ K3 (safe_marks debug _ _ K3 ltac:(discriminate))) as (r2 & J1 & J2 & J3 & _).
  cbn [c_pos c_marks] in *. unfold char_at in *.
  destruct (skipn (c_pos c) T) as [|x rest] eqn:Es.
  - pose proof (skipn_nil_len _ _ Es Hb) as Hl. rewrite Nat.add_comm in J2. cbn in J2. destruct E as [e|] eqn:EE.
    + rewrite (mbind_err _ _ _ _ _ J1). eexists _, _, _. split; [reflexivity|]. split; [|split; [exact J2|]].
      * unfold fail_at. rewrite Hl at 2. apply cs_ahead_fail; auto; [constructor; exact Es|]. rewrite Hl. apply at_pos_loc.
      * split; [auto|]. split; [reflexivity|]. exists m. reflexivity.
    + destruct (rep_reset_top _ _ _ _ _ J2) as (r3 & I1 & I2 & I3 & _). rewrite (mbind_ok _ _ _ _ _ J1), (mbind_ok _ _ _ _ _ I1). cbn.
      destruct c as [p ms]. cbn [c_pos c_marks] in *.
      eexists _, _, _. split; [reflexivity|]. split; [|split; [exact I2|auto]].
      apply cs_is_eof; auto. unfold left_. cbn. rewrite Es. tauto.
  - rewrite Nat.add_1_r in J2.
    destruct (rep_reset_top _ _ _ _ _ J2) as (r3 & I1 & I2 & I3 & _). rewrite (mbind_ok _ _ _ _ _ J1), (mbind_ok _ _ _ _ _ I1). cbn.
    destruct c as [p ms]. cbn [c_pos c_marks] in *.
    eexists _, _, _. split; [reflexivity|]. split; [|split; [exact I2|auto]].
    apply cs_is_eof; unfold left_; cbn; rewrite Es.
    + right. intros B. inversion B. discriminate.
    + split; intros; discriminate.
Qed.
Lemma rep_prefix : forall debug s r c, rep r c ->
  exists a r' c', lift ABool (m_prefix_matches debug s r) = (Ok a, r') /\ cstep T E l0 c (OPrefix s) a c' /\ rep r' c' /\
    (calm (mr_ub r) -> calm (mr_ub r')) /\
    match fst (p_prefix s (c_pos c)) with
    | Ok b => m_prefix_matches debug s r = (Ok b, r') /\ c' = c /\ (b = true -> s <> [] -> safe debug (mr_ub r'))
    | Err e => m_prefix_matches debug s r = (Err e, r') /\ exists m, c' = Cur (length T) ((m, c_pos c) :: c_marks c)
    | _ => False
    end.
Proof.
  intros debug s r c R. pose proof (rep_bound _ _ R) as Hb. unfold m_prefix_matches.
  destruct (rep_mark' debug r c R) as (m & r1 & K1 & K2 & K3 & K4).
  rewrite (mbind_ok _ _ _ _ _ K1).
  destruct (rep_prefix_loop debug s r1 _ K3 ltac:(discriminate)) as (r2 & J1 & J2 & J3).
  cbn [c_pos c_marks] in *. destruct c as [p ms]. cbn [c_pos c_marks] in *.
  destruct (p_prefix_spec s p Hb) as [(w & S1 & S2)|[(q & S0 & S1 & S2 & S3)|(e & y & s' & S1 & S2 & S3)]].
  - rewrite S2 in *. cbn [fst snd] in *.
    destruct (rep_reset_top _ _ _ _ _ J2) as (r3 & I1 & I2 & I3 & _ & I5). rewrite (mbind_ok _ _ _ _ _ J1), (mbind_ok _ _ _ _ _ I1). cbn.
    eexists _, _, _. split; [reflexivity|]. split; [|split; [exact I2|split; [auto|]]].
    + apply cs_prefix; unfold left_; cbn; rewrite S1; [|split; [intros _; exists w; reflexivity|reflexivity]].
      right. intros B. inversion B as [|y s' B2|].
      apply (f_equal (@length _)) in B2. rewrite !app_length in B2. cbn in B2. lia.
    + split; [reflexivity|]. split; [reflexivity|]. intros _ Hs. right. intros (_ & Z & _). rewrite I5 in Z; [discriminate|].
      destruct s; [contradiction|cbn; lia].
  - rewrite S1 in *. cbn [fst snd] in *.
    destruct (rep_reset_top _ _ _ _ _ J2) as (r3 & I1 & I2 & I3 & _). rewrite (mbind_ok _ _ _ _ _ J1), (mbind_ok _ _ _ _ _ I1). cbn.
    eexists _, _, _. split; [reflexivity|]. split; [|split; [exact I2|split; [auto|]]].
    + apply cs_prefix; unfold left_; cbn; [exact S3|]. split; [discriminate|]. intros Z. contradiction.
    + split; [reflexivity|]. split; [reflexivity|]. discriminate.
  - rewrite S3 in *. cbn [fst snd] in *. rewrite (mbind_err _ _ _ _ _ J1). eexists _, _, _. split; [reflexivity|]. split; [|split; [exact J2|split; [auto|]]].
    + apply cs_ahead_fail with (c := Cur p ms); auto; [|apply at_pos_loc]. unfold left_. cbn. rewrite S2. constructor.
    + split; [reflexivity|]. exists m. reflexivity.
Qed.
Lemma rep_peek : forall debug n r c, rep r c ->
  exists a r' c', lift AText (m_peek debug n r) = (Ok a, r') /\ cstep T E l0 c (OPeek n) a c' /\ rep r' c' /\
    (calm (mr_ub r) -> calm (mr_ub r')) /\
    match fst (p_peek n (c_pos c)) with
    | Ok s => m_peek debug n r = (Ok s, r') /\ c' = c /\ (s <> [] -> safe debug (mr_ub r'))
    | Err e => m_peek debug n r = (Err e, r') /\ exists m, c' = Cur (length T) ((m, c_pos c) :: c_marks c)
    | _ => False
    end.
Proof.
  intros debug n r c R. pose proof (rep_bound _ _ R) as Hb. unfold m_peek.
  destruct (rep_mark' debug r c R) as (m & r1 & K1 & K2 & K3 & K4).
  rewrite (mbind_ok _ _ _ _ _ K1).
  destruct (rep_peek_loop debug n r1 _ K3 ltac:(discriminate)) as (r2 & J1 & J2 & J3).
  cbn [c_pos c_marks] in *. destruct c as [p ms]. cbn [c_pos c_marks] in *.
  destruct (p_peek_spec n p Hb) as [(S1 & S2)|(e & S1 & S2 & S3)].
  - rewrite S2 in *. cbn [fst snd] in *.
    destruct (rep_reset_top _ _ _ _ _ J2) as (r3 & I1 & I2 & I3 & _ & I5). rewrite (mbind_ok _ _ _ _ _ J1), (mbind_ok _ _ _ _ _ I1). cbn.
    eexists _, _, _. split; [reflexivity|]. split; [|split; [exact I2|split; [auto|]]].
    + apply cs_peek with (rest := skipn n (skipn p T)); unfold left_; cbn.
      * destruct S1 as [S1|S1]; [left; exact S1|right]. apply no_beyond_peek. exact S1.
      * symmetry. apply firstn_skipn.
      * rewrite firstn_length. lia.
      * intros Hl. rewrite firstn_length in Hl. apply skipn_all2. lia.
    + split; [reflexivity|]. split; [reflexivity|]. intros Hs. right. intros (_ & Z & _). rewrite I5 in Z; [discriminate|].
      destruct (firstn n (skipn p T)); [contradiction|cbn; lia].
  - rewrite S3 in *. cbn [fst snd] in *. rewrite (mbind_err _ _ _ _ _ J1). eexists _, _, _. split; [reflexivity|]. split; [|split; [exact J2|split; [auto|]]].
    + apply cs_ahead_fail with (c := Cur p ms); auto; [|apply at_pos_loc]. constructor. exact S2.
    + split; [reflexivity|]. exists m. reflexivity.
Qed.

(** Skipping and reading everything. *)
Lemma rep_skip_loop : forall debug fuel n r c, rep r c -> n < fuel ->
  (exists r', m_skip_loop debug fuel n r = (Ok (n - length (skipn (c_pos c) T)), r') /\
     (E = None \/ n <= length (skipn (c_pos c) T)) /\
     rep r' (Cur (c_pos c + Nat.min n (length (skipn (c_pos c) T))) (c_marks c)) /\ (calm (mr_ub r) -> calm (mr_ub r'))) \/
  (exists e r', m_skip_loop debug fuel n r = (Err (fail_at (length T) e), r') /\ E = Some e /\ length (skipn (c_pos c) T) < n /\
     rep r' (Cur (length T) (c_marks c)) /\ (calm (mr_ub r) -> calm (mr_ub r'))) \/
  (exists r', m_skip_loop debug fuel n r = (Panic PDebugAssert, r') /\ ~ safe debug (mr_ub r)).
Proof.
  intros debug fuel. induction fuel as [|fuel IH]; intros n r c R Hf; [lia|]. cbn [m_skip_loop].
  destruct n as [|n].
  { left. exists r. split; [reflexivity|]. split; [right; lia|]. cbn. rewrite Nat.add_0_r. destruct c. auto. }
  set (k := Nat.min (S n) io_buffer). assert (Hk : 0 < k <= S n). { unfold k. assert (0 < io_buffer) by (vm_compute; lia). lia. }
  clearbody k. unfold mbind. pose proof (rep_bound _ _ R) as Hb.
  destruct (rep_read debug k r c R) as [s rest r' K1 K2 K3 K4 K5|r' K1 K2 K3|r' K1 K2 K3 K4|r' e K1 K2 K3 K4|r' K1 K2].
  - destruct s as [|x s]; [contradiction|]. set (s' := x :: s) in *.
    assert (Hl : length (skipn (c_pos c) T) = length s' + length rest) by (rewrite K3, app_length; reflexivity).
    assert (Hs : 0 < length s') by (cbn; lia). clearbody s'.
    assert (Hrest : length (skipn (c_pos (Cur (c_pos c + length s') (c_marks c))) T) = length rest).
    { cbn. rewrite (skipn_step _ _ _ K3). reflexivity. }
    destruct (IH (S n - length s') r' _ K4 ltac:(lia)) as [(r2 & I1 & I2 & I3 & I4)|[(e & r2 & I1 & I2 & I3 & I4 & I5)|(r2 & I1 & I2)]].
    + left. exists r2. rewrite Hrest in *. cbn [c_pos c_marks] in *. split; [rewrite I1; f_equal; f_equal; lia|].
      split; [destruct I2; [left; assumption|right; lia]|]. split; [|auto].
      replace (c_pos c + Nat.min (S n) (length (skipn (c_pos c) T))) with (c_pos c + length s' + Nat.min (S n - length s') (length rest)) by lia.
      exact I3.
    + right. left. exists e, r2. rewrite Hrest in *. cbn [c_pos c_marks] in *. split; [exact I1|]. split; [exact I2|].
      split; [lia|]. split; [exact I4|auto].
    + right. right. exists r2. split; [exact I1|]. intros S. apply I2.
      eapply safe_step; [exact R|exact K4|reflexivity|exact K5|exact S].
  - lia.
  - left. exists r'. rewrite K1. cbn. split; [reflexivity|]. split; [left; exact K2|]. rewrite Nat.add_0_r. destruct c.
    split; [exact K3|]. rewrite K4. auto.
  - right. left. exists e, r'. rewrite K1. pose proof (skipn_nil_len _ _ K1 Hb) as Hl. unfold fail_at. rewrite <- Hl.
    split; [reflexivity|]. split; [exact K2|]. split; [cbn; lia|]. destruct c. split; [exact K3|]. rewrite K4. auto.
  - right. right. exists r'. split; [reflexivity|]. intros [S|S]; [congruence|contradiction].
Qed.
Lemma rep_skip : forall debug n r c, rep r c ->
  (exists r', m_skip debug n r = (Ok (Nat.min n (length (skipn (c_pos c) T))), r') /\
     (E = None \/ n <= length (skipn (c_pos c) T)) /\
     rep r' (Cur (c_pos c + Nat.min n (length (skipn (c_pos c) T))) (c_marks c)) /\ (calm (mr_ub r) -> calm (mr_ub r'))) \/
  (exists e r', m_skip debug n r = (Err (fail_at (length T) e), r') /\ E = Some e /\ length (skipn (c_pos c) T) < n /\
     rep r' (Cur (length T) (c_marks c)) /\ (calm (mr_ub r) -> calm (mr_ub r'))) \/
  (exists r', m_skip debug n r = (Panic PDebugAssert, r') /\ ~ safe debug (mr_ub r)).
Proof.
  intros debug n r c R. unfold m_skip, mbind.
  destruct (rep_skip_loop debug (S n) n r c R ltac:(lia)) as [(r2 & I1 & I2)|[(e & r2 & I1 & I2)|(r2 & I1 & I2)]]; rewrite I1.
  - left. exists r2. split; [|exact I2]. unfold ret. do 2 f_equal. lia.
  - right. left. exists e, r2. auto.
  - right. right. exists r2. auto.
Qed.
Lemma rep_read_all : forall debug fuel r c, rep r c -> length (skipn (c_pos c) T) < fuel ->
  (exists r', m_read_all debug fuel r = (Ok (skipn (c_pos c) T), r') /\ E = None /\
     rep r' (Cur (length T) (c_marks c)) /\ (calm (mr_ub r) -> calm (mr_ub r'))) \/
  (exists e r', m_read_all debug fuel r = (Err (fail_at (length T) e), r') /\ E = Some e /\
     rep r' (Cur (length T) (c_marks c)) /\ (calm (mr_ub r) -> calm (mr_ub r'))) \/
  (exists r', m_read_all debug fuel r = (Panic PDebugAssert, r') /\ ~ safe debug (mr_ub r)).
Proof.
  intros debug fuel. induction fuel as [|fuel IH]; intros r c R Hf; [lia|]. cbn [m_read_all].
  assert (Hk : 0 < io_buffer) by (vm_compute; lia). set (k := io_buffer) in *.
  clearbody k. pose proof (rep_bound _ _ R) as Hb. pose proof (rep_read debug k r c R) as Q. 
  destruct (m_read_chars debug k r) as (x0 & r0) eqn:Ex. remember (x0, r0) as xr eqn:Exr.
  destruct Q as [s rest r' K1 K2 K3 K4 K5|r' K1 K2 K3|r' K1 K2 K3 K4|r' e K1 K2 K3 K4|r' K1 K2]; injection Exr as <- <-.
  - rewrite (mbind_ok _ _ _ _ _ Ex). destruct s as [|x s]; [contradiction|]. cbv beta iota. set (s' := x :: s) in *.
    assert (Hl : length (skipn (c_pos c) T) = length s' + length rest) by (rewrite K3, app_length; reflexivity).
    assert (Hs : 0 < length s') by (cbn; lia). clearbody s'.
    assert (Hrest : skipn (c_pos (Cur (c_pos c + length s') (c_marks c))) T = rest).
    { cbn. rewrite (skipn_step _ _ _ K3). reflexivity. }
    destruct (IH r' _ K4 ltac:(rewrite Hrest; lia)) as [(r2 & I1 & I2 & I3 & I4)|[(e & r2 & I1 & I2 & I3 & I4)|(r2 & I1 & I2)]].
    + rewrite (mbind_ok _ _ _ _ _ I1). left. exists r2. rewrite Hrest in *. cbn [c_pos c_marks] in *. rewrite K3. unfold ret. repeat (split; auto).
    + rewrite (mbind_err _ _ _ _ _ I1). right. left. exists e, r2. repeat (split; auto).
    + rewrite (mbind_panic _ _ _ _ _ I1). right. right. exists r2. split; [reflexivity|]. intros S. apply I2.
      eapply safe_step; [exact R|exact K4|reflexivity|exact K5|exact S].
  - lia.
  - rewrite (mbind_ok _ _ _ _ _ Ex). left. exists r'. rewrite K1. cbn. split; [reflexivity|]. split; [exact K2|]. rewrite <- (skipn_nil_len _ _ K1 Hb). destruct c.
    split; [exact K3|]. rewrite K4. auto.
  - rewrite (mbind_err _ _ _ _ _ Ex). right. left. exists e, r'. pose proof (skipn_nil_len _ _ K1 Hb) as Hl. unfold fail_at. rewrite <- Hl.
    split; [reflexivity|]. split; [exact K2|]. destruct c. split; [exact K3|]. rewrite K4. auto.
  - rewrite (mbind_panic _ _ _ _ _ Ex). right. right. exists r'. split; [reflexivity|]. intros [S|S]; [congruence|contradiction].
Qed.
Lemma unsafe : forall debug u, ~ safe debug u -> debug = true /\ ~ calm u.
Proof.
  intros debug u H. split.
  - destruct debug; [reflexivity|]. exfalso. apply H. left. reflexivity.
  - intros C. apply H. apply safe_calm. exact C.
Qed.

(** One operation. *)
Definition is_unmark (o : op) : bool := match o with OUnmark _ => true | _ => false end.
Lemma rep_step : forall debug o r c, rep r c ->
  (exists a r' c', perform1 debug o r = (Ok a, r') /\ cstep T E l0 c o a c' /\ rep r' c' /\
     (is_unmark o = false -> calm (mr_ub r) -> calm (mr_ub r')))
  \/ (exists r', perform1 debug o r = (Panic PDebugAssert, r') /\ debug = true /\ ~ calm (mr_ub r) /\ is_unmark o = false).
Proof.
  intros debug [n| |m|m| | |s|n|n|] r c R.
  - cbn [perform1]. destruct (rep_read debug n r c R) as [s rest r' K1 K2 K3 K4 K5|r' K1 K2 K3|r' K1 K2 K3 K4|r' e K1 K2 K3 K4|r' K1 K2].
    + left. eexists _, _, _. split; [reflexivity|]. split; [econstructor; eassumption|]. auto.
    + left. subst n. eexists _, _, _. split; [reflexivity|]. split; [apply cs_read_nothing|]. split; [exact K2|]. rewrite K3. auto.
    + left. eexists _, _, _. split; [reflexivity|]. split; [apply cs_read_end; assumption|]. split; [exact K3|]. rewrite K4. auto.
    + left. eexists _, _, _. split; [reflexivity|]. split; [apply cs_read_fail; [exact K1|exact K2|apply at_pos_loc]|]. split; [exact K3|]. rewrite K4. auto.
    + right. eexists. split; [reflexivity|]. split; [exact K1|]. split; [|reflexivity]. intros C. exact (calm_no_hazard _ C K2).
  - left. destruct (rep_mark debug r c R) as (m & r' & K1 & K2 & K3 & K4 & _). cbn [perform1]. rewrite K1.
    eexists _, _, _. split; [reflexivity|]. split; [exact K2|]. auto.
  - left. destruct (rep_reset m r c R) as (a & r' & c' & K1 & K2 & K3 & K4). eexists a, r', c'. auto.
  - left. destruct (rep_unmark m r c R) as (a & r' & c' & K1 & K2 & K3). eexists a, r', c'.
    split; [exact K1|]. split; [exact K2|]. split; [exact K3|]. discriminate.
  - left. eexists _, r, c. split; [reflexivity|]. destruct R as (base & R). rewrite (rp_loc _ _ _ R).
    split; [constructor; apply at_pos_loc|]. split; [exists base; exact R|auto].
  - left. destruct (rep_is_eof debug r c R) as (a & r' & c' & K1 & K2 & K3 & K4 & _). exists a, r', c'. auto.
  - left. destruct (rep_prefix debug s r c R) as (a & r' & c' & K1 & K2 & K3 & K4 & _). exists a, r', c'. auto.
  - left. destruct (rep_peek debug n r c R) as (a & r' & c' & K1 & K2 & K3 & K4 & _). exists a, r', c'. auto.
  - cbn [perform1]. pose proof (rep_bound _ _ R) as Hb. destruct (rep_skip debug n r c R) as [(r' & K1 & K2 & K3 & K4)|[(e & r' & K1 & K2 & K3 & K4 & K5)|(r' & K1 & K2)]]; rewrite K1.
    + left. eexists _, r', _. split; [reflexivity|]. split; [|split; [exact K3|auto]].
      rewrite <- firstn_length. apply cs_skip with (rest := skipn n (skipn (c_pos c) T)).
      * exact K2.
      * symmetry. apply firstn_skipn.
      * rewrite firstn_length. lia.
      * intros Hl. rewrite firstn_length in Hl. apply skipn_all2. lia.
    + left. eexists _, r', _. split; [reflexivity|]. split; [|split; [exact K4|auto]].
      apply cs_to_end_fail; [exact K2|apply at_pos_loc|]. right. exists n. auto.
    + right. exists r'. destruct (unsafe _ _ K2). auto.
  - cbn [perform1]. assert (Hf : length (skipn (c_pos c) T) < S (length (ub_buf (mr_ub r)) + length (concat (s_chunks (mr_src r))))).
    { destruct R as (base & R). rewrite <- (rp_rest _ _ _ R), app_length, skipn_length. lia. }
    destruct (rep_read_all debug _ r c R Hf) as [(r' & K1 & K2 & K3 & K4)|[(e & r' & K1 & K2 & K3 & K4)|(r' & K1 & K2)]]; rewrite K1.
    + left. eexists _, r', _. split; [reflexivity|]. split; [|split; [exact K3|auto]]. apply cs_read_all. exact K2.
    + left. eexists _, r', _. split; [reflexivity|]. split; [|split; [exact K3|auto]].
      apply cs_to_end_fail; [exact K2|apply at_pos_loc|]. auto.
    + right. exists r'. destruct (unsafe _ _ K2). auto.
Qed.

(** Histories. *)
Lemma rep_run : forall debug os r c, rep r c ->
  (exists answers r' c', perform debug os r = (answers, None, r') /\ csteps T E l0 c os answers c' /\ rep r' c') \/
  (exists done o rest answers r' c', os = done ++ o :: rest /\ perform debug os r = (answers, Some (Panic PDebugAssert), r') /\
     csteps T E l0 c done answers c' /\ debug = true /\ (calm (mr_ub r) -> exists m, In (OUnmark m) done)).
Proof.
  intros debug os. induction os as [|o os IH]; intros r c R.
  - left. exists [], r, c. split; [reflexivity|]. split; [constructor|exact R].
  - cbn [perform]. destruct (rep_step debug o r c R) as [(a & r1 & c1 & K1 & K2 & K3 & K4)|(r1 & K1 & K2 & K3 & K4)].
    + rewrite K1. destruct (IH r1 c1 K3) as [(an & r' & c' & I1 & I2 & I3)|(dn & o' & rest & an & r' & c' & I1 & I2 & I3 & I4 & I5)].
      * left. rewrite I1. exists (a :: an), r', c'. split; [reflexivity|]. split; [econstructor; eassumption|exact I3].
      * right. rewrite I2. exists (o :: dn), o', rest, (a :: an), r', c'. split; [rewrite I1; reflexivity|]. split; [reflexivity|].
        split; [econstructor; eassumption|]. split; [exact I4|]. intros C. destruct (is_unmark o) eqn:Eo.
        -- destruct o; try discriminate. eexists. left. reflexivity.
        -- destruct (I5 (K4 eq_refl C)) as (m & Hm). exists m. right. exact Hm.
    + rewrite K1. right. exists [], o, os, [], r1, c. split; [reflexivity|]. split; [reflexivity|]. split; [constructor|].
      split; [exact K2|]. intros C. contradiction.
Qed.
End Rep.

(** A fresh reader. *)
Lemma rep_new : forall l0 chunks E, rep (concat chunks) E l0 (mr_new l0 (Src chunks E)) (Cur 0 []).
Proof.
  intros l0 chunks E. exists 0. constructor; cbn; auto; try lia. constructor.
Qed.
Lemma calm_new : forall l0 s, calm (mr_ub (mr_new l0 s)).
Proof. intros. right. reflexivity. Qed.

(** Cursor histories. *)
Lemma csteps_app : forall T E l0 os1 an1 os2 c an c', csteps T E l0 c (os1 ++ os2) an c' -> length an1 = length os1 ->
  forall an2, an = an1 ++ an2 -> exists c1, csteps T E l0 c os1 an1 c1 /\ csteps T E l0 c1 os2 an2 c'.
Proof.
  intros T E l0 os1. induction os1 as [|o os1 IH]; intros an1 os2 c an c' H Hl an2 He.
  - destruct an1; [|discriminate]. cbn in He. subst an. exists c. split; [constructor|exact H].
  - destruct an1 as [|a an1]; [discriminate|]. cbn in He. subst an. inversion H; subst.
    injection Hl as Hl. match goal with K : csteps _ _ _ _ (os1 ++ os2) _ _ |- _ => destruct (IH an1 os2 _ _ _ K Hl an2 eq_refl) as (c3 & A & B) end.
    exists c3. split; [econstructor; eassumption|exact B].
Qed.
Lemma csteps_lengths : forall T E l0 c os an c', csteps T E l0 c os an c' -> length an = length os.
Proof. induction 1; cbn; auto. Qed.
Lemma cstep_tells : forall T l0 c o a c', cstep T None l0 c o a c' -> looks o -> c_pos c <= length T ->
  exists k, tells (left_ T c) o a k /\ c' = Cur (c_pos c + k) (c_marks c).
Proof.
  intros T l0 c o a c' H Hl Hb. destruct H; try contradiction; try discriminate.
  - destruct H as [-> | ->]; contradiction.
  - exists 0. rewrite Nat.add_0_r. split; [|destruct c; reflexivity]. destruct b; [apply tl_eof_yes; tauto|apply tl_eof_no].
    intros Z. apply H0 in Z. discriminate.
  - exists 0. rewrite Nat.add_0_r. split; [|destruct c; reflexivity]. destruct b.
    + destruct (proj1 H0 eq_refl) as (w & Hw). exact (tl_prefix_yes _ s w Hw).
    + apply tl_prefix_no. intros w Hw. enough (false = true) by discriminate. apply H0. exists w. exact Hw.
  - exists 0. rewrite Nat.add_0_r. split; [|destruct c; reflexivity].
    replace s with (firstn n (left_ T c)); [constructor|]. rewrite H0.
    destruct (Nat.eq_dec (length s) n) as [<-|Hn].
    + rewrite firstn_app, Nat.sub_diag, firstn_O, app_nil_r. apply firstn_all.
    + rewrite H2 by lia. rewrite app_nil_r. apply firstn_all2. lia.
  - exists (length s). split; [|reflexivity].
    replace (length s) with (Nat.min n (length (left_ T c))); [constructor|]. rewrite H0, app_length.
    destruct (Nat.eq_dec (length s) n) as [<-|Hn]; [lia|]. rewrite H2 by lia. cbn. lia.
  - exists (length (left_ T c)). split; [constructor|]. f_equal. unfold left_. rewrite skipn_length. lia.
Qed.

Lemma perform_app : forall debug os1 os2 r an r', perform debug (os1 ++ os2) r = (an, None, r') ->
  exists an1 an2 r1, an = an1 ++ an2 /\ length an1 = length os1 /\ perform debug os1 r = (an1, None, r1) /\
    perform debug os2 r1 = (an2, None, r').
Proof.
  intros debug os1. induction os1 as [|o os1 IH]; intros os2 r an r' H.
  - exists [], an, r. auto.
  - cbn [app perform] in *. destruct (perform1 debug o r) as (x & r1). destruct x as [a|e|pp|]; try discriminate.
    destruct (perform debug (os1 ++ os2) r1) as ((l & e) & r2) eqn:Ep. injection H as <- -> <-.
    destruct (IH _ _ _ _ Ep) as (an1 & an2 & r3 & -> & A & B & C). exists (a :: an1), an2, r3.
    rewrite B. cbn. auto.
Qed.
Lemma rep_done : forall T E l0 debug os r c an r', rep T E l0 r c -> perform debug os r = (an, None, r') ->
  exists c', csteps T E l0 c os an c' /\ rep T E l0 r' c'.
Proof.
  intros T E l0 debug os r c an r' R H.
  destruct (rep_run T E l0 debug os r c R) as [(an' & r2 & c' & I1 & I2 & I3)|(dn & o & rest & an' & r2 & c' & I1 & I2 & _)].
  - rewrite I1 in H. injection H as <- <-. eauto.
  - rewrite I2 in H. discriminate.
Qed.
(** A released mark. *)
Lemma no_mark_stays : forall T E l0 m c os an c', csteps T E l0 c os an c' -> ~ In m (map fst (c_marks c)) ->
  ~ In (AId m) an -> (forall o e, In (o, AFail e) (combine os an) -> ~ looks o) -> ~ In m (map fst (c_marks c')).
Proof.
  intros T E l0 m c os an c' H. induction H as [c|c o a c1 os an c2 H1 H2 IH]; intros Hm Ha Hf; [exact Hm|].
  apply IH.
  - destruct H1; cbn [c_marks map fst] in *; auto.
    + intros [Z|Z]; [|contradiction]. apply Ha. left. f_equal. exact Z.
    + intros Z. apply Hm. rewrite H, map_app. apply in_app_iff. right. right. exact Z.
    + intros Z. apply Hm. rewrite H, map_app. apply in_app_iff. right. right. exact Z.
    + exfalso. apply (Hf o _ (or_introl eq_refl)). destruct H0; exact I.
  - intros Z. apply Ha. right. exact Z.
  - intros o' e' Hin. apply (Hf o' e'). right. exact Hin.
Qed.
