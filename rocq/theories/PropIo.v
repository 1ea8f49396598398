(** C24-C27 and the reader part of C50. *)
From Coq Require Import String List NArith Arith Bool Lia.
From Verif Require Import Base Io SpecText SpecIo TextFacts IoFacts.
Import ListNotations.
Open Scope nat_scope.

(** [perform debug os r] (IoFacts.v) runs the operations one after the other on the
    model of [MarkableReader] and collects the answers; it stops when one panics. *)

(** C24.  Every history on every source is answered as the cursor over the
    concatenated chunks answers it. *)
Lemma reader_is_cursor_pf : forall l0 chunks ending os, exists answers r c,
  perform false os (mr_new l0 (Src chunks ending)) = (answers, None, r) /\
  csteps (concat chunks) ending l0 (Cur 0 []) os answers c.
Proof.
  intros l0 chunks ending os.
  destruct (rep_run _ _ _ false os _ _ (rep_new l0 chunks ending)) as [(an & r & c & A & B & _)|(dn & o & rest & an & r & c & _ & _ & _ & Z & _)].
  - exists an, r, c. auto.
  - discriminate.
Qed.
Theorem C24_reader_is_cursor : forall l0 chunks ending os, exists answers r c,
  perform false os (mr_new l0 (Src chunks ending)) = (answers, None, r) /\
  csteps (concat chunks) ending l0 (Cur 0 []) os answers c.
Proof. exact reader_is_cursor_pf. Qed.
Print Assumptions C24_reader_is_cursor.
(** The history of a back-tracking parse over three chunks. *)
Example reader_is_cursor_case :
  let '(answers, x, _) := perform false [OMark; ORead 2; ORead 5; OLocation; OReset 0; ORead 4; OIsEof; ORead 4; ORead 4]
                            (mr_new (loc_new []) (Src [[97%N; 10%N; 98%N]; []; [99%N]] None)) in
  answers = [AId 0%N; AText [97%N; 10%N]; AText [98%N]; AWhere (Loc [] 2 2); ACount 3; AText [97%N; 10%N; 98%N];
             ABool false; AText [99%N]; AText []] /\ x = None.
Proof. vm_compute. split; reflexivity. Qed.

(** C25 is false: a debug build panics when text is read after the last mark was
    released and the buffer is used up. *)
Theorem C25_reader_assertions_never_fire_refuted : exists chunks os answers r,
  perform true os (mr_new (loc_new []) (Src chunks None)) = (answers, Some (Panic PDebugAssert), r).
Proof.
  exists [[97%N; 98%N]], [OMark; ORead 1; OUnmark 0%N; ORead 1]. eexists _, _. vm_compute. reflexivity.
Qed.
Print Assumptions C25_reader_assertions_never_fire_refuted.
(** What holds: only that assertion can fire, and only after an [unmark]. *)
Lemma reader_assertions_pf : forall debug l0 chunks ending os answers x r,
  perform debug os (mr_new l0 (Src chunks ending)) = (answers, Some x, r) ->
  debug = true /\ x = Panic PDebugAssert /\
  exists done rest m, os = done ++ rest /\ length answers = length done /\ In (OUnmark m) done.
Proof.
  intros debug l0 chunks ending os answers x r H.
  destruct (rep_run _ _ _ debug os _ _ (rep_new l0 chunks ending)) as [(an & r' & c & A & _)|(dn & o & rest & an & r' & c & A & B & C & D & F)].
  - rewrite A in H. discriminate.
  - rewrite B in H. injection H as <- <- <-. split; [exact D|]. split; [reflexivity|].
    destruct (F (calm_new l0 (Src chunks ending))) as (m & Hm). exists dn, (o :: rest), m. split; [exact A|].
    split; [exact (csteps_lengths _ _ _ _ _ _ _ C)|exact Hm].
Qed.
Theorem C25_reader_assertions : forall debug l0 chunks ending os answers x r,
  perform debug os (mr_new l0 (Src chunks ending)) = (answers, Some x, r) ->
  debug = true /\ x = Panic PDebugAssert /\
  exists done rest m, os = done ++ rest /\ length answers = length done /\ In (OUnmark m) done.
Proof. exact reader_assertions_pf. Qed.
Print Assumptions C25_reader_assertions.
Lemma reader_no_unmark_pf : forall l0 chunks ending os, (forall m, ~ In (OUnmark m) os) ->
  exists answers r c, perform true os (mr_new l0 (Src chunks ending)) = (answers, None, r) /\
    csteps (concat chunks) ending l0 (Cur 0 []) os answers c.
Proof.
  intros l0 chunks ending os H.
  destruct (rep_run _ _ _ true os _ _ (rep_new l0 chunks ending)) as [(an & r' & c & A & B & _)|(dn & o & rest & an & r' & c & A & B & C & D & F)].
  - exists an, r', c. auto.
  - destruct (F (calm_new l0 (Src chunks ending))) as (m & Hm). exfalso. apply (H m). rewrite A. apply in_app_iff. left. exact Hm.
Qed.
Theorem C25_reader_no_unmark : forall l0 chunks ending os, (forall m, ~ In (OUnmark m) os) ->
  exists answers r c, perform true os (mr_new l0 (Src chunks ending)) = (answers, None, r) /\
    csteps (concat chunks) ending l0 (Cur 0 []) os answers c.
Proof. exact reader_no_unmark_pf. Qed.
Print Assumptions C25_reader_no_unmark.
Example reader_no_unmark_case :
  let os := [OMark; ORead 1; OMark; OReset 0%N; ORead 1; ORead 1] in
  (forall m, ~ In (OUnmark m) os) /\
  fst (fst (perform true os (mr_of_text (loc_new []) [97%N; 98%N]))) = [AId 0%N; AText [97%N]; AId 1%N; ACount 1; AText [97%N]; AText [98%N]].
Proof. split; [|vm_compute; reflexivity]. intros m. cbn. intuition discriminate. Qed.

(** C26 is false: a mark taken at the start, used and thereby released, can be used
    again and then moves the reader to a place where it was not taken. *)
Theorem C26_released_mark_stays_invalid_refuted : exists text m start later answers r,
  perform false [OLocation; OMark; ORead 1; OReset m; ORead 1; OMark; ORead 1; OReset m; OLocation]
    (mr_of_text (loc_new []) text) = (answers, None, r) /\
  answers = [AWhere start; AId m; AText [97%N]; ACount 1; AText [97%N]; AId m; AText [98%N]; ACount 1; AWhere later] /\
  start <> later.
Proof.
  exists [97%N; 98%N; 99%N], 0%N, (Loc [] 1 1), (Loc [] 1 2). eexists _, _. split; [vm_compute; reflexivity|].
  split; [reflexivity|discriminate].
Qed.
Print Assumptions C26_released_mark_stays_invalid_refuted.
(** What holds: a mark that is not outstanding stays unusable, and trying to use it
    changes nothing, until [mark] hands out the same identifier again. *)
Lemma released_mark_pf : forall l0 chunks os1 o os2 o' m an1 a an2 a' r,
  (o = OReset m \/ o = OUnmark m) -> (o' = OReset m \/ o' = OUnmark m) ->
  perform false (os1 ++ o :: os2 ++ [o']) (mr_new l0 (Src chunks None)) = (an1 ++ a :: an2 ++ [a'], None, r) ->
  length an1 = length os1 -> length an2 = length os2 ->
  (forall e, a <> AFail e) -> count_occ N.eq_dec (flat_map (fun x => match x with AId i => [i] | _ => [] end) an1) m <= 1 ->
  ~ In (AId m) an2 -> exists e, a' = AFail e.
Proof.
  intros l0 chunks os1 o os2 o' m an1 a an2 a' r Ho Ho' Hp H1 H2 Ha Hc Hn.
  destruct (rep_done _ _ _ _ _ _ _ _ _ (rep_new l0 chunks None) Hp) as (c' & Hcs & _).
  destruct (csteps_app _ _ _ _ _ _ _ _ _ Hcs H1 _ eq_refl) as (c1 & A1 & A2).
  inversion A2; subst. match goal with K : csteps _ _ _ _ (os2 ++ [o']) _ _ |- _ => rename K into A3 end.
  match goal with K : cstep _ _ _ c1 o a _ |- _ => rename K into A4 end.
  destruct (csteps_app _ _ _ _ _ _ _ _ _ A3 H2 _ eq_refl) as (c3 & A5 & A6).
  assert (M1 : forall os an c cc, csteps (concat chunks) None l0 c os an cc ->
     count_occ N.eq_dec (map fst (c_marks cc)) m <= count_occ N.eq_dec (map fst (c_marks c)) m +
       count_occ N.eq_dec (flat_map (fun x => match x with AId i => [i] | _ => [] end) an) m).
  { clear. intros os an c cc H. induction H as [c|c o a c1 os an c2 K1 K2 IH]; [cbn; lia|].
    cbn [flat_map]. rewrite count_occ_app. enough (count_occ N.eq_dec (map fst (c_marks c1)) m <= count_occ N.eq_dec (map fst (c_marks c)) m +
      count_occ N.eq_dec (match a with AId i => [i] | _ => [] end) m) by lia. clear -K1.
    destruct K1; try (cbn [c_marks]; lia); try discriminate.
    - cbn. destruct (N.eq_dec m0 m); lia.
    - cbn [c_marks]. rewrite H, map_app, count_occ_app. cbn. destruct (N.eq_dec m0 m); lia.
    - cbn [c_marks]. rewrite H, map_app, count_occ_app. cbn. destruct (N.eq_dec m0 m); lia. }
  pose proof (M1 _ _ _ _ A1) as M2. cbn in M2.
  assert (Hout : ~ In m (map fst (c_marks c0))).
  { rewrite (count_occ_not_In N.eq_dec). destruct Ho as [-> | ->]; inversion A4; subst; try (exfalso; eapply Ha; reflexivity);
      cbn [c_marks]; match goal with K : c_marks c1 = _ |- _ => rewrite K, map_app, count_occ_app in M2 end; cbn in M2;
      destruct (N.eq_dec m m); try congruence; lia. }
  assert (Hlook : forall x e, In (x, AFail e) (combine os2 an2) -> ~ looks x).
  { clear -A5. induction A5 as [c|c o a c1 os an c2 K1 K2 IH]; cbn; [intros x e []|]. intros x e [Z|Z]; [|eauto].
    injection Z as <- ->. inversion K1; subst; try discriminate; try (intros []; fail).
    match goal with K : _ \/ _ |- _ => destruct K as [-> | ->]; exact (fun x => x) end. }
  pose proof (no_mark_stays _ _ _ m _ _ _ _ A5 Hout Hn Hlook) as Hm3.
  inversion A6; subst. match goal with K : cstep _ _ _ c3 _ _ _ |- _ => rename K into A7 end.
  destruct Ho' as [-> | ->]; inversion A7; subst; try (eexists; reflexivity);
    exfalso; apply Hm3; match goal with K : c_marks c3 = _ |- _ => rewrite K, map_app end;
    apply in_app_iff; right; left; reflexivity.
Qed.
Theorem C26_released_mark : forall l0 chunks os1 o os2 o' m an1 a an2 a' r,
  (o = OReset m \/ o = OUnmark m) -> (o' = OReset m \/ o' = OUnmark m) ->
  perform false (os1 ++ o :: os2 ++ [o']) (mr_new l0 (Src chunks None)) = (an1 ++ a :: an2 ++ [a'], None, r) ->
  length an1 = length os1 -> length an2 = length os2 ->
  (forall e, a <> AFail e) -> count_occ N.eq_dec (flat_map (fun x => match x with AId i => [i] | _ => [] end) an1) m <= 1 ->
  ~ In (AId m) an2 -> exists e, a' = AFail e.
Proof. exact released_mark_pf. Qed.
Print Assumptions C26_released_mark.
Example released_mark_case :
  fst (fst (perform false ([OMark; ORead 1] ++ OReset 0%N :: [ORead 2] ++ [OUnmark 0%N]) (mr_new (loc_new []) (Src [[97%N; 98%N]] None))))
  = [AId 0%N; AText [97%N]] ++ ACount 1 :: [AText [97%N]] ++ [AFail (Error_ (Loc [] 1 2) (MInvalidMark 0 []))].
Proof. vm_compute. reflexivity. Qed.

(** C27. *)
Lemma lookahead_pf : forall debug l0 chunks os1 o os2 answers r, looks o ->
  perform debug (os1 ++ o :: os2) (mr_new l0 (Src chunks None)) = (answers, None, r) ->
  exists an1 a an2 c k c', answers = an1 ++ a :: an2 /\
    csteps (concat chunks) None l0 (Cur 0 []) os1 an1 c /\
    tells (skipn (c_pos c) (concat chunks)) o a k /\
    csteps (concat chunks) None l0 (Cur (c_pos c + k) (c_marks c)) os2 an2 c'.
Proof.
  intros debug l0 chunks os1 o os2 answers r Hl Hp.
  destruct (perform_app _ _ _ _ _ _ Hp) as (an1 & an2' & r1 & -> & A & B & C).
  destruct (rep_done _ _ _ _ _ _ _ _ _ (rep_new l0 chunks None) B) as (c & C1 & C2).
  destruct (rep_done _ _ _ _ _ _ _ _ _ C2 C) as (c' & D1 & D2).
  inversion D1; subst. match goal with K : cstep _ _ _ _ _ _ _ |- _ => destruct (cstep_tells _ _ _ _ _ _ K Hl (rep_bound _ _ _ _ _ C2)) as (k & K1 & ->) end.
  exists an1, a, answers, c, k, c'. auto.
Qed.
Theorem C27_lookahead : forall debug l0 chunks os1 o os2 answers r, looks o ->
  perform debug (os1 ++ o :: os2) (mr_new l0 (Src chunks None)) = (answers, None, r) ->
  exists an1 a an2 c k c', answers = an1 ++ a :: an2 /\
    csteps (concat chunks) None l0 (Cur 0 []) os1 an1 c /\
    tells (skipn (c_pos c) (concat chunks)) o a k /\
    csteps (concat chunks) None l0 (Cur (c_pos c + k) (c_marks c)) os2 an2 c'.
Proof. exact lookahead_pf. Qed.
Print Assumptions C27_lookahead.
Example lookahead_case :
  fst (perform true [ORead 1; OPrefix [98%N; 99%N]; OPeek 5; OSkip 1; OIsEof; OReadAll; OIsEof; OSkip 7]
       (mr_new (loc_new []) (Src [[97%N; 98%N]; [99%N]] None)))
  = ([AText [97%N]; ABool true; AText [98%N; 99%N]; ACount 1; ABool false; AText [99%N]; ABool true; ACount 0], None).
Proof. vm_compute. reflexivity. Qed.
(** Looking ahead never panics, whatever the state of the reader. *)
Lemma lookahead_safe_pf : forall debug l0 chunks ending os answers r o, looks o -> (forall n, o <> OSkip n) -> o <> OReadAll ->
  perform debug os (mr_new l0 (Src chunks ending)) = (answers, None, r) ->
  exists a r', perform1 debug o r = (Ok a, r').
Proof.
  intros debug l0 chunks ending os answers r o Hl Hs Ha Hp.
  destruct (rep_done _ _ _ _ _ _ _ _ _ (rep_new l0 chunks ending) Hp) as (c & _ & R).
  destruct o; try contradiction; try congruence.
  - destruct (rep_is_eof _ _ _ debug r c R) as (a & r' & c' & K & _). eauto.
  - destruct (rep_prefix _ _ _ debug s r c R) as (a & r' & c' & K & _). eauto.
  - destruct (rep_peek _ _ _ debug n r c R) as (a & r' & c' & K & _). eauto.
Qed.
Theorem C27_lookahead_safe : forall debug l0 chunks ending os answers r o, looks o -> (forall n, o <> OSkip n) -> o <> OReadAll ->
  perform debug os (mr_new l0 (Src chunks ending)) = (answers, None, r) ->
  exists a r', perform1 debug o r = (Ok a, r').
Proof. exact lookahead_safe_pf. Qed.
Print Assumptions C27_lookahead_safe.
(** ... also in the state of [C25_reader_assertions_never_fire_refuted]. *)
Example lookahead_safe_case :
  fst (perform true [OMark; ORead 1; OUnmark 0%N; OIsEof; OPeek 3] (mr_of_text (loc_new []) [97%N; 98%N]))
  = ([AId 0%N; AText [97%N]; ADone; ABool false; AText [98%N]], None).
Proof. vm_compute. reflexivity. Qed.

(** C50, reader: a failing source. *)
Lemma read_failure_located_pf : forall l0 chunks e os n answers err r,
  perform false (os ++ [ORead n]) (mr_new l0 (Src chunks (Some e))) = (answers ++ [AFail err], None, r) ->
  exists l, reaches l0 (concat chunks) l /\ err = Error_ l (MWrapped (e_loc e) (e_msg e)).
Proof.
  intros l0 chunks e os n answers err r Hp.
  destruct (perform_app _ _ _ _ _ _ Hp) as (an1 & an2 & r1 & He & A & B & C).
  destruct (rep_done _ _ _ _ _ _ _ _ _ (rep_new l0 chunks (Some e)) B) as (c & C1 & C2).
  destruct (rep_done _ _ _ _ _ _ _ _ _ C2 C) as (c' & D1 & D2).
  inversion D1; subst. match goal with K : csteps _ _ _ _ [] _ _ |- _ => inversion K; subst end.
  apply app_inj_tail in He as (_ & <-).
  match goal with K : cstep _ _ _ _ _ _ _ |- _ => inversion K; subst end.
  - exists l. match goal with K : Some e = Some _ |- _ => injection K as <- end. split; [|reflexivity].
    match goal with K : at_pos _ _ _ _ |- _ => unfold at_pos in K end.
    match goal with K : skipn _ _ = [] |- _ => rewrite (skipn_nil_len _ _ K (rep_bound _ _ _ _ _ C2)) in * end.
    rewrite firstn_all in *. assumption.
  - match goal with K : _ \/ _ |- _ => destruct K; discriminate end.
  - match goal with K : beyond _ _ |- _ => inversion K end.
  - match goal with K : _ \/ _ |- _ => destruct K as [Z|(? & Z & _)]; discriminate end.
Qed.
Theorem C50_read_failure_located : forall l0 chunks e os n answers err r,
  perform false (os ++ [ORead n]) (mr_new l0 (Src chunks (Some e))) = (answers ++ [AFail err], None, r) ->
  exists l, reaches l0 (concat chunks) l /\ err = Error_ l (MWrapped (e_loc e) (e_msg e)).
Proof. exact read_failure_located_pf. Qed.
Print Assumptions C50_read_failure_located.
Lemma buffered_text_survives_pf : forall l0 chunks ending os m n k answers a r,
  perform false (os ++ [OReset m; ORead (S n)]) (mr_new l0 (Src chunks ending)) = (answers ++ [ACount (S k); a], None, r) ->
  exists pre s rest, a = AText s /\ s <> [] /\ concat chunks = pre ++ s ++ rest.
Proof.
  intros l0 chunks ending os m n k answers a r Hp.
  destruct (perform_app _ _ _ _ _ _ Hp) as (an1 & an2 & r1 & He & A & B & C).
  destruct (rep_done _ _ _ _ _ _ _ _ _ (rep_new l0 chunks ending) B) as (c & C1 & C2).
  destruct (rep_done _ _ _ _ _ _ _ _ _ C2 C) as (c' & D1 & D2). pose proof (rep_bound _ _ _ _ _ C2) as Hb.
  inversion D1; subst. match goal with K : csteps _ _ _ _ [ORead _] _ _ |- _ => inversion K; subst end.
  match goal with K : csteps _ _ _ _ [] _ _ |- _ => inversion K; subst end.
  change (answers ++ [ACount (S k); a]) with (answers ++ [ACount (S k)] ++ [a]) in He. rewrite app_assoc in He.
  match type of He with _ = an1 ++ [?x; ?y] => change (an1 ++ [x; y]) with (an1 ++ [x] ++ [y]) in He end. rewrite app_assoc in He.
  apply app_inj_tail in He as (He & <-). apply app_inj_tail in He as (_ & <-).
  match goal with K : cstep _ _ _ _ (OReset _) _ _ |- _ => inversion K; subst end.
  match goal with K : cstep _ _ _ _ (ORead _) _ _ |- _ => rename K into Q end.
  assert (Hne : skipn p (concat chunks) <> []).
  { intros Z. apply (f_equal (@length _)) in Z. rewrite skipn_length in Z. cbn in Z. lia. }
  inversion Q; subst; cbn [c_pos] in *; try contradiction.
  - exists (firstn p (concat chunks)), s, rest. split; [reflexivity|]. split; [assumption|].
    match goal with K : skipn p _ = _ |- _ => rewrite <- K end. symmetry. apply firstn_skipn.
  - match goal with K : _ \/ _ |- _ => destruct K; discriminate end.
  - match goal with K : beyond _ _ |- _ => inversion K end.
  - match goal with K : _ \/ _ |- _ => destruct K as [Z|(? & Z & _)]; discriminate end.
Qed.
Theorem C50_buffered_text_survives : forall l0 chunks ending os m n k answers a r,
  perform false (os ++ [OReset m; ORead (S n)]) (mr_new l0 (Src chunks ending)) = (answers ++ [ACount (S k); a], None, r) ->
  exists pre s rest, a = AText s /\ s <> [] /\ concat chunks = pre ++ s ++ rest.
Proof. exact buffered_text_survives_pf. Qed.
Print Assumptions C50_buffered_text_survives.
Example failing_source_case :
  let e := Error_ (loc_new []) (MIo []) in
  fst (perform false ([OMark; ORead 9; ORead 9] ++ [OReset 0%N; ORead 2]) (mr_new (loc_new []) (Src [[97%N; 98%N]] (Some e))))
  = ([AId 0%N; AText [97%N; 98%N]; AFail (Error_ (Loc [] 1 3) (MWrapped (e_loc e) (e_msg e)))] ++ [ACount 2; AText [97%N; 98%N]], None).
Proof. vm_compute. reflexivity. Qed.
