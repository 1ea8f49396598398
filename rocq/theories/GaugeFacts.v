(** The markable reader follows its gauge. *)
From Coq Require Import String List NArith Arith Bool Lia Sorted.
From Verif Require Import Base Io SpecText SpecIo TextFacts TokRun IoFacts SpecGauge.
Import ListNotations.
Open Scope nat_scope.

(** ** The gauge *)
Lemma read_on_0 : forall g, read_on 0 g = g.
Proof. intros g. reflexivity. Qed.
Lemma read_on_pos : forall k g, g_pos (read_on k g) = g_pos g + k.
Proof.
  intros k g. unfold read_on. destruct (Nat.eqb_spec k 0) as [->|]; [lia|]. destruct (g_marks g); [|reflexivity].
  destruct (g_pos g =? g_seen g); [reflexivity|]. destruct (g_pos g + k <? g_seen g); reflexivity.
Qed.
Lemma read_on_marks : forall k g, g_marks (read_on k g) = g_marks g.
Proof.
  intros k g. unfold read_on. destruct (Nat.eqb_spec k 0) as [->|]; [reflexivity|]. destruct (g_marks g) eqn:E; [|reflexivity].
  destruct (g_pos g =? g_seen g); [reflexivity|]. destruct (g_pos g + k <? g_seen g); reflexivity.
Qed.
Lemma read_on_add : forall a b g, g_pos g <= g_seen g -> (g_pos g = g_seen g \/ g_pos g + a <= g_seen g \/ g_marks g <> []) ->
  read_on b (read_on a g) = read_on (a + b) g.
Proof.
  intros a b [p ms s h d] Hle Hc. cbn [g_pos g_seen g_marks] in *. unfold read_on. cbn [g_pos g_seen g_marks g_held g_gone].
  destruct (Nat.eqb_spec a 0) as [->|Ha].
  { cbn [Nat.add]. reflexivity. }
  destruct (Nat.eqb_spec (a + b) 0) as [K|_]; [lia|].
  destruct (Nat.eqb_spec b 0) as [->|Hb].
  { rewrite !Nat.add_0_r. reflexivity. }
  destruct ms as [|m ms]; cbn [g_pos g_seen g_marks g_held g_gone].
  - destruct (Nat.eqb_spec p s) as [->|Hn]; cbn [g_pos g_seen g_marks g_held g_gone].
    + rewrite Nat.eqb_refl. f_equal; lia.
    + destruct (Nat.ltb_spec (p + a) s) as [H1|H1]; cbn [g_pos g_seen g_marks g_held g_gone].
      * destruct (Nat.eqb_spec (p + a) s); [lia|]. replace (p + a + b) with (p + (a + b)) by lia. reflexivity.
      * rewrite Nat.eqb_refl. destruct (Nat.ltb_spec (p + (a + b)) s); [lia|]. f_equal; lia.
  - f_equal; lia.
Qed.

Lemma split_once : forall (n1 n2 : list (N * nat)) m p1 p2 o1 o2, n1 ++ (m, p1) :: o1 = n2 ++ (m, p2) :: o2 ->
  ~ In m (map fst n1) -> ~ In m (map fst n2) -> p1 = p2 /\ o1 = o2.
Proof.
  induction n1 as [|(a & q) n1 IH]; intros [|(b & q2) n2] m p1 p2 o1 o2 H H1 H2; cbn [app] in H.
  - injection H as -> ->. auto.
  - injection H as -> _ _. exfalso. apply H2. left. reflexivity.
  - injection H as -> _ _. exfalso. apply H1. left. reflexivity.
  - injection H as _ _ H. apply (IH _ _ _ _ _ _ H); intros K; [apply H1|apply H2]; right; exact K.
Qed.

Section Gauged.
Variable T : str.
Variable E : option error.
Variable l0 : location.
Notation rep := (rep T E l0).
Notation rep_at := (rep_at T E l0).
Definition at_gauge (g : gauge) : cursor := Cur (g_pos g) (g_marks g).
Definition gauged (r : mreader) (g : gauge) : Prop := exists base, rep_at base r (at_gauge g) /\
  g_seen g = base + length (ub_buf (mr_ub r)) /\ g_held g = length (ub_buf (mr_ub r)) /\
  N.of_nat base = (ub_head (mr_ub r) + N.of_nat (g_gone g))%N.
Lemma gauged_rep : forall r g, gauged r g -> rep r (at_gauge g).
Proof. intros r g (base & R & _). exists base. exact R. Qed.
Lemma gauged_le : forall r g, gauged r g -> g_pos g <= g_seen g.
Proof. intros r g (base & R & H & _). pose proof (rp_pos _ _ _ _ _ _ R) as K1. pose proof (rp_next _ _ _ _ _ _ R) as K2. cbn [at_gauge c_pos] in K1. lia. Qed.
(** The base follows from the rest. *)
Lemma gauged_of : forall r g, rep r (at_gauge g) ->
  g_seen g + ub_next (mr_ub r) = g_pos g + length (ub_buf (mr_ub r)) -> g_held g = length (ub_buf (mr_ub r)) ->
  N.of_nat (g_pos g) = (ub_head (mr_ub r) + N.of_nat (g_gone g) + N.of_nat (ub_next (mr_ub r)))%N -> gauged r g.
Proof.
  intros r g (base & R) H1 H2 H3. exists base. split; [exact R|]. pose proof (rp_pos _ _ _ _ _ _ R) as K. cbn [at_gauge c_pos] in K.
  split; [lia|]. split; [exact H2|]. lia.
Qed.
Lemma gauged_to : forall r g, gauged r g -> ub_next (mr_ub r) <= length (ub_buf (mr_ub r)) /\
  g_seen g + ub_next (mr_ub r) = g_pos g + length (ub_buf (mr_ub r)) /\ g_held g = length (ub_buf (mr_ub r)) /\
  N.of_nat (g_pos g) = (ub_head (mr_ub r) + N.of_nat (g_gone g) + N.of_nat (ub_next (mr_ub r)))%N /\
  (ub_stack (mr_ub r) = [] <-> g_marks g = []).
Proof.
  intros r g (base & R & H1 & H2 & H3). pose proof (rp_pos _ _ _ _ _ _ R) as K. pose proof (rp_next _ _ _ _ _ _ R) as K2. cbn [at_gauge c_pos] in K.
  pose proof (rp_stack _ _ _ _ _ _ R) as K3. cbn [at_gauge c_marks] in K3. repeat split; try lia.
  - intros Z. rewrite Z in K3. destruct (g_marks g); [reflexivity|discriminate].
  - intros Z. rewrite K3, Z. reflexivity.
Qed.
Lemma gauged_same : forall r r' g, gauged r g -> rep r' (at_gauge g) -> mr_ub r' = mr_ub r -> gauged r' g.
Proof. intros r r' g H R Hu. destruct (gauged_to _ _ H) as (K1 & K2 & K3 & K4 & _). apply gauged_of; rewrite ?Hu; assumption. Qed.

(** ** Reading *)
Definition nums (u : ubuf) : nat * nat * N := (ub_next u, length (ub_buf u), ub_head u).
Lemma chars_nums : forall debug n r s r', m_read_chars debug n r = (Ok s, r') -> s <> [] -> ub_next (mr_ub r) <= length (ub_buf (mr_ub r)) ->
  let u := mr_ub r in let u' := mr_ub r' in
  (ub_next u < length (ub_buf u) /\ ub_head u' = ub_head u /\ ub_next u + length s <= length (ub_buf u) /\
     ((ub_stack u = [] /\ ub_next u + length s = length (ub_buf u) /\ ub_next u' = 0 /\ length (ub_buf u') = 0) \/
      ((ub_stack u <> [] \/ ub_next u + length s < length (ub_buf u)) /\ ub_next u' = ub_next u + length s /\ length (ub_buf u') = length (ub_buf u)))) \/
  (ub_next u = length (ub_buf u) /\
     ((ub_stack u = [] /\ ub_next u' = ub_next u /\ length (ub_buf u') = length (ub_buf u) /\ ub_head u' = (ub_head u + N.of_nat (length s))%N) \/
      (ub_stack u <> [] /\ ub_next u' = ub_next u + length s /\ length (ub_buf u') = length (ub_buf u) + length s /\ ub_head u' = ub_head u))).
Proof.
  intros debug n r s r' H Hs Hn. cbv zeta. unfold m_read_chars in H. destruct (ub_remains (mr_ub r)) eqn:Er.
  - apply Nat.ltb_lt in Er. left. split; [exact Er|]. unfold ub_read in H.
    set (out := firstn n (skipn (ub_next (mr_ub r)) (ub_buf (mr_ub r)))) in *. injection H as <- <-. cbn [mr_ub ub_head].
    assert (Hl : ub_next (mr_ub r) + length out <= length (ub_buf (mr_ub r))).
    { unfold out. rewrite firstn_length, skipn_length. lia. }
    clearbody out. unfold ub_remains. cbn [ub_next ub_buf].
    destruct (Nat.ltb_spec (ub_next (mr_ub r) + length out) (length (ub_buf (mr_ub r)))) as [K|K]; cbn [ub_head ub_next ub_buf].
    + split; [reflexivity|]. split; [exact Hl|]. right. auto.
    + unfold ub_truncate. cbn [ub_stack]. destruct (ub_stack (mr_ub r)) eqn:Es; cbn [ub_head ub_next ub_buf].
      * split; [reflexivity|]. split; [exact Hl|]. left. repeat split. lia.
      * split; [reflexivity|]. split; [exact Hl|]. right. split; [left; discriminate|]. auto.
  - apply Nat.ltb_ge in Er. right. split; [lia|].
    destruct (src_read n (mr_src r)) as [[[|x out]|e|p|] sr]; try discriminate.
    { injection H as <- _. contradiction. }
    unfold ub_append in H. destruct (ub_stack (mr_ub r)) eqn:Es.
    + destruct (debug && _) in H; [discriminate|]. injection H as <- <-. left. repeat split.
    + destruct (debug && _) in H; [discriminate|]. injection H as <- <-. right. split; [discriminate|]. cbn [mr_ub ub_next ub_buf ub_head]. rewrite app_length. auto.
Qed.
Lemma gauge_read : forall debug n r g, gauged r g ->
  match m_read_chars debug n r with
  | (Ok s, r') => gauged r' (read_on (length s) g) /\ (g_pos g = g_seen g \/ g_pos g + length s <= g_seen g) /\ g_pos g + length s <= length T
  | (Err e, r') => gauged r' g /\ g_pos g = length T
  | (Panic p, r') => debug = true /\ unguarded T g (ORead n) /\ p = PDebugAssert
  | (OutOfFuel, _) => False
  end.
Proof.
  intros debug n r g Hg. pose proof (gauged_rep _ _ Hg) as R. pose proof (rep_bound _ _ _ _ _ R) as Hb. cbn [at_gauge c_pos] in Hb.
  pose proof (rep_read T E l0 debug n r _ R) as Q. destruct (m_read_chars debug n r) as (x & r1) eqn:Ex. remember (x, r1) as xr eqn:Exr.
  destruct (gauged_to _ _ Hg) as (N1 & N2 & N3 & N4 & N5).
  destruct Q as [s rest r' K1 K2 K3 K4 K5|r' K1 K2 K3|r' K1 K2 K3 K4|r' e K1 K2 K3 K4|r' K1 K2]; injection Exr as <- <-.
  - cbn [at_gauge c_pos c_marks] in *. pose proof (pos_step _ _ _ _ K3 Hb) as Hp.
    pose proof (chars_nums _ _ _ _ _ Ex K1 N1) as Hc. cbv zeta in Hc.
    assert (Hl : length s <> 0) by (destruct s; [contradiction|discriminate]).
    assert (R' : rep r' (at_gauge (read_on (length s) g))).
    { unfold at_gauge. rewrite read_on_pos, read_on_marks. exact K4. }
    split; [|split; [|exact Hp]].
    + unfold read_on in *. apply Nat.eqb_neq in Hl. rewrite Hl in *. apply Nat.eqb_neq in Hl.
      destruct (g_marks g) as [|m ms] eqn:Em.
      * assert (Es : ub_stack (mr_ub r) = []) by (apply N5; reflexivity).
        destruct Hc as [(C1 & C2 & C3 & [(_ & C4 & C5 & C6)|([C4|C4] & C5 & C6)])|(C1 & [(_ & C2 & C3 & C4)|(C2 & _)])]; try congruence.
        -- destruct (Nat.eqb_spec (g_pos g) (g_seen g)); [lia|]. destruct (Nat.ltb_spec (g_pos g + length s) (g_seen g)); [lia|].
           apply gauged_of; cbn [g_pos g_seen g_held g_gone]; [exact R'|lia..].
        -- destruct (Nat.eqb_spec (g_pos g) (g_seen g)); [lia|]. destruct (Nat.ltb_spec (g_pos g + length s) (g_seen g)); [|lia].
           apply gauged_of; cbn [g_pos g_seen g_held g_gone]; [exact R'|lia..].
        -- destruct (Nat.eqb_spec (g_pos g) (g_seen g)); [|lia].
           apply gauged_of; cbn [g_pos g_seen g_held g_gone]; [exact R'|lia..].
      * assert (Es : ub_stack (mr_ub r) <> []) by (intros Z; apply N5 in Z; discriminate).
        destruct Hc as [(C1 & C2 & C3 & [(C4 & _)|(_ & C5 & C6)])|(C1 & [(C2 & _)|(_ & C2 & C3 & C4)])]; try contradiction.
        -- apply gauged_of; cbn [g_pos g_seen g_held g_gone]; [exact R'|lia..].
        -- apply gauged_of; cbn [g_pos g_seen g_held g_gone]; [exact R'|lia..].
    + destruct Hc as [(C1 & C2 & C3 & _)|(C1 & _)]; [right|left]; lia.
  - cbn [length]. rewrite read_on_0. split; [exact (gauged_same _ _ _ Hg K2 K3)|]. split; [|lia]. right. rewrite Nat.add_0_r. exact (gauged_le _ _ Hg).
  - cbn [length]. rewrite read_on_0. split; [exact (gauged_same _ _ _ Hg K3 K4)|]. split; [|lia]. right. rewrite Nat.add_0_r. exact (gauged_le _ _ Hg).
  - split; [exact (gauged_same _ _ _ Hg K3 K4)|]. exact (skipn_nil_len _ _ K1 Hb).
  - split; [exact K1|]. split; [|reflexivity]. destruct K2 as (H1 & H2 & H3). apply Nat.ltb_ge in H2.
    split; [apply N5; exact H1|]. split; [rewrite N3; destruct (ub_buf (mr_ub r)); [contradiction|cbn; lia]|]. split; [lia|].
    unfold m_read_chars in Ex. assert (Er : ub_remains (mr_ub r) = false) by (apply Nat.ltb_ge; lia). rewrite Er in Ex.
    destruct R as (base & R). pose proof (rp_rest _ _ _ _ _ _ R) as Hr. rewrite skipn_all2 in Hr by lia. cbn [app at_gauge c_pos] in Hr.
    unfold src_read in Ex. pose proof (src_chunks_concat (s_chunks (mr_src r))) as Hcc.
    destruct (src_chunks (s_chunks (mr_src r))) as [|ch cs] eqn:Ech.
    { destruct (s_end (mr_src r)); discriminate. }
    pose proof (src_chunks_head _ _ _ Ech) as Hch. split.
    + rewrite <- Hcc in Hr. apply (f_equal (@length _)) in Hr. rewrite skipn_length in Hr. cbn [concat] in Hr. rewrite app_length in Hr. destruct ch; [contradiction|]. cbn in Hr. lia.
    + destruct n; [discriminate|lia].
Qed.
Lemma gauge_trips : forall n r g, gauged r g -> unguarded T g (ORead n) -> exists r', m_read_chars true n r = (Panic PDebugAssert, r').
Proof.
  intros n r g Hg (H1 & H2 & H3 & H4 & H5). destruct (gauged_to _ _ Hg) as (N1 & N2 & N3 & N4 & N5).
  assert (Es : ub_stack (mr_ub r) = []) by (apply N5; exact H1).
  unfold m_read_chars. assert (Er : ub_remains (mr_ub r) = false) by (apply Nat.ltb_ge; lia). rewrite Er.
  destruct (gauged_rep _ _ Hg) as (base & R). pose proof (rp_rest _ _ _ _ _ _ R) as Hr. rewrite skipn_all2 in Hr by lia. cbn [app at_gauge c_pos] in Hr.
  unfold src_read. pose proof (src_chunks_concat (s_chunks (mr_src r))) as Hcc.
  destruct (src_chunks (s_chunks (mr_src r))) as [|ch cs] eqn:Ech.
  - exfalso. rewrite <- Hcc in Hr. apply (f_equal (@length _)) in Hr. rewrite skipn_length in Hr. cbn in Hr. lia.
  - pose proof (src_chunks_head _ _ _ Ech) as Hch. destruct ch as [|c ch]; [contradiction|]. destruct n as [|n]; [lia|]. cbn [firstn].
    unfold ub_append. rewrite Es. destruct (ub_buf (mr_ub r)) as [|b bs] eqn:Eb; [cbn in N3; lia|]. cbn [andb negb]. eexists. reflexivity.
Qed.

(** ** Marks *)
Lemma gauge_mark : forall debug r g, gauged r g -> exists r', m_mark debug r = (Ok (mark_id g), r') /\ gauged r' (with_mark g).
Proof.
  intros debug r g Hg. destruct (rep_mark T E l0 debug r _ (gauged_rep _ _ Hg)) as (m & r' & K1 & _ & K3 & _).
  destruct (gauged_to _ _ Hg) as (N1 & N2 & N3 & N4 & _).
  assert (Hm : m = mark_id g /\ nums (mr_ub r') = nums (mr_ub r)).
  { unfold m_mark, with_ub, ub_mark in K1. destruct (debug && _) in K1; [discriminate|]. injection K1 as <- <-. split; [|reflexivity].
    unfold ub_position, mark_id. lia. }
  destruct Hm as (-> & Hn). unfold nums in Hn. injection Hn as Hn1 Hn2 Hn3. exists r'. split; [exact K1|].
  apply gauged_of; [exact K3|..]; cbn [with_mark g_pos g_seen g_held g_gone]; rewrite ?Hn1, ?Hn2, ?Hn3; assumption.
Qed.
Lemma gauge_place : forall base r g m p, rep_at base r (at_gauge g) -> In (m, p) (g_marks g) ->
  m = (ub_head (mr_ub r) + N.of_nat (p - base))%N /\ base <= p <= g_pos g.
Proof.
  intros base r g m p R Hin. pose proof (rp_marks _ _ _ _ _ _ R) as H. cbn [at_gauge c_marks c_pos] in H. rewrite Forall_forall in H.
  destruct (H _ Hin) as (B1 & B2 & B3 & _). cbn [fst snd] in *. repeat split; assumption.
Qed.
Lemma gauge_back : forall r r' g p ms, gauged r g -> rep r' (Cur p ms) -> nums (mr_ub r') = (ub_next (mr_ub r'), length (ub_buf (mr_ub r)), ub_head (mr_ub r)) ->
  g_pos g + ub_next (mr_ub r') = p + ub_next (mr_ub r) -> gauged r' (moved_to p ms g).
Proof.
  intros r r' g p ms Hg R Hn Hp. unfold nums in Hn. injection Hn as Hn2 Hn3. destruct (gauged_to _ _ Hg) as (N1 & N2 & N3 & N4 & _).
  apply gauged_of; cbn [moved_to g_pos g_seen g_held g_gone]; [exact R|rewrite ?Hn2, ?Hn3; lia..].
Qed.
Lemma gauge_reset : forall m r g, gauged r g -> exists a r' g', lift ACount (m_reset m r) = (Ok a, r') /\ gstep T g (OReset m) a g' /\ gauged r' g'.
Proof.
  intros m r g Hg. pose proof Hg as (base & R & G1 & G2 & G3).
  destruct (rep_reset T E l0 m r _ (gauged_rep _ _ Hg)) as (a & r' & c' & K1 & K2 & K3 & _). exists a, r'.
  pose proof K1 as K0. unfold m_reset, with_ub, ub_revert in K0. pose proof (rep_remove T E l0 base r _ m R) as Q.
  destruct (ub_remove_mark m (mr_ub r)) as [(l & u')|e|p|]; try contradiction; cbn [bind] in K0.
  - destruct Q as (newer & p & below & Q1 & Q2 & -> & ->). unfold ub_position in K0. cbn [ub_head ub_next ub_stack ub_buf] in K0.
    cbn [at_gauge c_marks] in Q1.
    destruct (gauge_place _ _ _ m p R) as (P1 & P2 & P3). { rewrite Q1. apply in_app_iff. right. left. reflexivity. }
    pose proof (rp_pos _ _ _ _ _ _ R) as P4. cbn [at_gauge c_pos] in P4.
    destruct (N.ltb m (ub_head (mr_ub r)) || N.ltb (ub_head (mr_ub r) + N.of_nat (ub_next (mr_ub r))) m)%bool; [discriminate|].
    cbn [lift] in K0. injection K0 as E1 E2.
    exists (moved_to p below g). split; [exact K1|]. split.
    + replace a with (ACount (g_pos g - p)) by (rewrite <- E1; f_equal; lia). eapply gs_reset; [exact Q1|exact Q2|exact P3].
    + apply (gauge_back r); [exact Hg| |rewrite <- E2; reflexivity|rewrite <- E2; cbn [mr_ub ub_next]; lia].
      replace (Cur p below) with c'; [exact K3|]. inversion K2; subst; try discriminate.
      * match goal with K : c_marks (at_gauge g) = _ ++ _ |- _ => cbn [at_gauge c_marks] in K; rewrite Q1 in K; destruct (split_once _ _ _ _ _ _ _ K Q2) as (-> & ->); [assumption|reflexivity] end.
  - destruct Q as (Q1 & Q2). injection K0 as E1 E2. exists g. split; [exact K1|]. split.
    + rewrite <- E1. eapply gs_no_mark; [left; reflexivity|exact Q1].
    + rewrite <- E2. exact Hg.
Qed.
Lemma gauge_unmark : forall m r g, gauged r g -> exists a r' g', lift (fun _ => ADone) (m_unmark m r) = (Ok a, r') /\ gstep T g (OUnmark m) a g' /\ gauged r' g'.
Proof.
  intros m r g Hg. pose proof Hg as (base & R & G1 & G2 & G3).
  destruct (rep_unmark T E l0 m r _ (gauged_rep _ _ Hg)) as (a & r' & c' & K1 & K2 & K3). exists a, r'.
  pose proof K1 as K0. unfold m_unmark, with_ub in K0. pose proof (rep_remove T E l0 base r _ m R) as Q.
  destruct (ub_remove_mark m (mr_ub r)) as [(l & u')|e|p|]; try contradiction; cbn [bind] in K0.
  - destruct Q as (newer & p & below & Q1 & Q2 & -> & ->). cbn [at_gauge c_marks] in Q1. cbn [lift] in K0. injection K0 as E1 E2.
    exists (moved_to (g_pos g) below g). split; [exact K1|]. split.
    + rewrite <- E1. eapply gs_unmark; [exact Q1|exact Q2].
    + apply (gauge_back r); [exact Hg| |rewrite <- E2; reflexivity|rewrite <- E2; reflexivity].
      replace (Cur (g_pos g) below) with c'; [exact K3|]. inversion K2; subst; try discriminate.
      * match goal with K : c_marks (at_gauge g) = _ ++ _ |- _ => cbn [at_gauge c_marks] in K; rewrite Q1 in K; destruct (split_once _ _ _ _ _ _ _ K Q2) as (-> & ->); [assumption|reflexivity] end.
  - destruct Q as (Q1 & Q2). injection K0 as E1 E2. exists g. split; [exact K1|]. split.
    + rewrite <- E1. eapply gs_no_mark; [right; reflexivity|exact Q1].
    + rewrite <- E2. exact Hg.
Qed.
Lemma gauge_top : forall r g m p ms, gauged r g -> g_marks g = (m, p) :: ms -> exists r', m_reset m r = (Ok (g_pos g - p), r') /\ gauged r' (moved_to p ms g).
Proof.
  intros r g m p ms Hg Hm. destruct (gauge_reset m r g Hg) as (a & r' & g' & K1 & K2 & K3).
  pose proof (gauged_rep _ _ Hg) as R. unfold at_gauge in R. rewrite Hm in R. destruct (rep_reset_top _ _ _ _ _ _ _ _ R) as (r2 & J1 & _).
  rewrite J1 in K1. cbn [lift] in K1. injection K1 as <- <-. exists r2. split; [exact J1|].
  inversion K2; subst.
  - match goal with K : g_marks g = _ |- _ => rewrite Hm in K; change ((m, p) :: ms) with ([] ++ (m, p) :: ms) in K; destruct (split_once _ _ _ _ _ _ _ K) as (-> & ->); [intros []|assumption|exact K3] end.
  - match goal with K : ahead_only (OReset m) |- _ => destruct K end.
  - match goal with K : takes_on (OReset m) |- _ => destruct K end.
Qed.

(** ** Operations made of these *)
Lemma gauge_read1 : forall debug r g, gauged r g -> g_marks g <> [] -> exists r', m_read debug r = (char_at T E l0 (g_pos g), r') /\
  gauged r' (read_on (Nat.min 1 (length (skipn (g_pos g) T))) g).
Proof.
  intros debug r g Hg Hm. destruct (rep_read1 T E l0 debug r _ (gauged_rep _ _ Hg)) as (r' & K1 & _ & _ & _); [apply (safe_marks T E l0 debug r (at_gauge g)); [exact (gauged_rep _ _ Hg)|exact Hm]|].
  cbn [at_gauge c_pos] in K1. exists r'. split; [exact K1|]. pose proof (gauge_read debug 1 r g Hg) as Q. pose proof (rep_read T E l0 debug 1 r _ (gauged_rep _ _ Hg)) as Q'.
  unfold m_read, mbind, ret in K1. destruct (m_read_chars debug 1 r) as [x r1]. remember (x, r1) as xr eqn:Exr.
  destruct Q' as [s rest r2 J1 J2 J3 _ _|r2 J1 _ _|r2 J1 J2 _ _|r2 e J1 J2 _ _|r2 J1 J2]; injection Exr as <- <-; cbn [at_gauge c_pos] in *.
  - injection K1 as _ <-. destruct s as [|c [|d s]]; [contradiction| |cbn in J2; lia]. rewrite J3. exact (proj1 Q).
  - lia.
  - injection K1 as _ <-. rewrite J1. exact (proj1 Q).
  - injection K1 as _ <-. rewrite J1. exact (proj1 Q).
  - destruct Q as (_ & (Q & _) & _). contradiction.
Qed.
Lemma gauge_next : forall r g c rest, gauged r g -> g_marks g <> [] -> skipn (g_pos g) T = c :: rest ->
  forall k, read_on k (read_on 1 g) = read_on (S k) g /\ skipn (g_pos (read_on 1 g)) T = rest /\ g_marks (read_on 1 g) <> [].
Proof.
  intros r g c rest Hg Hm Hs k. split; [apply (read_on_add 1 k); [exact (gauged_le _ _ Hg)|auto]|]. rewrite read_on_pos, read_on_marks. split; [|exact Hm].
  rewrite Nat.add_1_r. exact (skipn_cons _ _ _ _ Hs).
Qed.
Lemma gauge_prefix_loop : forall debug s r g, gauged r g -> g_marks g <> [] -> exists x r', m_prefix_loop debug s r = (x, r') /\
  gauged r' (read_on (compared s (skipn (g_pos g) T)) g).
Proof.
  intros debug s. induction s as [|a s IH]; intros r g Hg Hm.
  - exists (Ok true), r. split; [reflexivity|exact Hg].
  - cbn [m_prefix_loop compared]. destruct (gauge_read1 debug r g Hg Hm) as (r1 & K1 & K2). unfold mbind. rewrite K1. unfold char_at.
    destruct (skipn (g_pos g) T) as [|c rest] eqn:Es.
    + destruct E; eexists _, r1; (split; [reflexivity|exact K2]).
    + cbn [length Nat.min] in K2. destruct (N.eqb c a) eqn:Ea.
      * destruct (gauge_next r g c rest Hg Hm Es (compared s rest)) as (A1 & A2 & A3). destruct (IH _ _ K2 A3) as (x & r2 & I1 & I2).
        exists x, r2. split; [exact I1|]. rewrite A2, A1 in I2. exact I2.
      * exists (Ok false), r1. split; [reflexivity|exact K2].
Qed.
Lemma gauge_peek_loop : forall debug n r g, gauged r g -> g_marks g <> [] -> exists x r', m_peek_loop debug n r = (x, r') /\
  gauged r' (read_on (Nat.min n (length (skipn (g_pos g) T))) g).
Proof.
  intros debug n. induction n as [|n IH]; intros r g Hg Hm.
  - exists (Ok []), r. split; [reflexivity|exact Hg].
  - cbn [m_peek_loop]. destruct (gauge_read1 debug r g Hg Hm) as (r1 & K1 & K2). unfold mbind at 1. rewrite K1. unfold char_at.
    destruct (skipn (g_pos g) T) as [|c rest] eqn:Es.
    + destruct E; eexists _, r1; (split; [reflexivity|exact K2]).
    + cbn [length Nat.min] in *. destruct (gauge_next r g c rest Hg Hm Es (Nat.min n (length rest))) as (A1 & A2 & A3). destruct (IH _ _ K2 A3) as (x & r2 & I1 & I2).
      unfold mbind at 1. rewrite I1. rewrite A2, A1 in I2. destruct x; eexists _, r2; (split; [reflexivity|exact I2]).
Qed.
Lemma gauge_skip_loop : forall debug fuel n r g, gauged r g -> n < fuel ->
  match m_skip_loop debug fuel n r with
  | (Ok _, r') | (Err _, r') => gauged r' (read_on (Nat.min n (length (skipn (g_pos g) T))) g)
  | (Panic _, _) => debug = true /\ unguarded T g (OSkip n)
  | (OutOfFuel, _) => False
  end.
Proof.
  intros debug fuel. induction fuel as [|fuel IH]; intros n r g Hg Hf; [lia|]. cbn [m_skip_loop]. destruct n as [|n]; [exact Hg|].
  set (k := Nat.min (S n) io_buffer). assert (Hk : 0 < k <= S n). { unfold k. assert (0 < io_buffer) by (vm_compute; lia). lia. }
  clearbody k. pose proof (gauge_read debug k r g Hg) as Q. pose proof (rep_read T E l0 debug k r _ (gauged_rep _ _ Hg)) as Q'. unfold mbind.
  destruct (m_read_chars debug k r) as [x r1] eqn:Ex. remember (x, r1) as xr eqn:Exr.
  destruct Q' as [s rest r2 J1 J2 J3 _ _|r2 J1 _ _|r2 J1 J2 _ _|r2 e J1 J2 _ _|r2 J1 J2]; injection Exr as <- <-; cbn [at_gauge c_pos] in *.
  - destruct s as [|c s]; [contradiction|]. destruct Q as (Q1 & Q2 & Q3). set (w := c :: s) in *. assert (Hw : 0 < length w) by (cbn; lia). clearbody w.
    specialize (IH (S n - length w) r2 _ Q1 ltac:(lia)).
    assert (Hl : length (skipn (g_pos g) T) = length w + length rest) by (rewrite J3, app_length; reflexivity).
    rewrite read_on_pos, (skipn_step _ _ _ _ J3), read_on_add in IH by (try exact (gauged_le _ _ Hg); tauto).
    replace (length w + Nat.min (S n - length w) (length rest)) with (Nat.min (S n) (length (skipn (g_pos g) T))) in IH by lia.
    destruct (m_skip_loop debug fuel (S n - length w) r2) as [[y|e|p|] r3]; try exact IH. exfalso.
    destruct IH as (-> & U1 & U2 & U3 & U4 & _). rewrite read_on_marks in U1. unfold read_on in *. destruct (Nat.eqb_spec (length w) 0); [lia|].
    rewrite U1 in *. destruct (Nat.eqb_spec (g_pos g) (g_seen g)) as [Ep|Ep]; cbn [g_pos g_seen g_held] in *.
    + assert (U : unguarded T g (ORead k)) by (repeat split; try assumption; lia). destruct (gauge_trips k r g Hg U) as (r4 & K). rewrite K in Ex. discriminate.
    + destruct (Nat.ltb_spec (g_pos g + length w) (g_seen g)); cbn [g_pos g_seen g_held] in *; lia.
  - lia.
  - rewrite J1. cbn [length]. rewrite Nat.min_0_r. exact (proj1 Q).
  - rewrite J1. cbn [length]. rewrite Nat.min_0_r. exact (proj1 Q).
  - destruct Q as (Q1 & (U1 & U2 & U3 & U4 & _) & _). split; [exact Q1|]. repeat split; try assumption. lia.
Qed.
Lemma gauge_all : forall debug fuel r g, gauged r g -> length (skipn (g_pos g) T) < fuel ->
  match m_read_all debug fuel r with
  | (Ok _, r') | (Err _, r') => gauged r' (read_on (length (skipn (g_pos g) T)) g)
  | (Panic _, _) => debug = true /\ unguarded T g OReadAll
  | (OutOfFuel, _) => False
  end.
Proof.
  intros debug fuel. induction fuel as [|fuel IH]; intros r g Hg Hf; [lia|]. cbn [m_read_all].
  assert (Hk : 0 < io_buffer) by (vm_compute; lia). set (k := io_buffer) in *.
  clearbody k. pose proof (gauge_read debug k r g Hg) as Q. pose proof (rep_read T E l0 debug k r _ (gauged_rep _ _ Hg)) as Q'. unfold mbind at 1.
  destruct (m_read_chars debug k r) as [x r1] eqn:Ex. remember (x, r1) as xr eqn:Exr.
  destruct Q' as [s rest r2 J1 J2 J3 _ _|r2 J1 _ _|r2 J1 J2 _ _|r2 e J1 J2 _ _|r2 J1 J2]; injection Exr as <- <-; cbn [at_gauge c_pos] in *.
  - destruct s as [|c s]; [contradiction|]. destruct Q as (Q1 & Q2 & Q3). set (w := c :: s) in *. assert (Hw : 0 < length w) by (cbn; lia). clearbody w.
    assert (Hl : length (skipn (g_pos g) T) = length w + length rest) by (rewrite J3, app_length; reflexivity).
    specialize (IH r2 _ Q1). rewrite read_on_pos, (skipn_step _ _ _ _ J3), read_on_add in IH by (try exact (gauged_le _ _ Hg); tauto).
    specialize (IH ltac:(lia)). rewrite <- Hl in IH. unfold mbind.
    destruct (m_read_all debug fuel r2) as [[y|e|p|] r3]; try exact IH. exfalso.
    destruct IH as (-> & U1 & U2 & U3 & U4 & _). rewrite read_on_marks in U1. unfold read_on in *. destruct (Nat.eqb_spec (length w) 0); [lia|].
    rewrite U1 in *. destruct (Nat.eqb_spec (g_pos g) (g_seen g)) as [Ep|Ep]; cbn [g_pos g_seen g_held] in *.
    + assert (U : unguarded T g (ORead k)) by (repeat split; try assumption; lia). destruct (gauge_trips k r g Hg U) as (r4 & K). rewrite K in Ex. discriminate.
    + destruct (Nat.ltb_spec (g_pos g + length w) (g_seen g)); cbn [g_pos g_seen g_held] in *; lia.
  - lia.
  - rewrite J1. cbn [length]. exact (proj1 Q).
  - rewrite J1. cbn [length]. exact (proj1 Q).
  - destruct Q as (Q1 & (U1 & U2 & U3 & U4 & _) & _). split; [exact Q1|]. repeat split; try assumption.
Qed.

(** ** Every operation *)
Lemma rep_pos_fun : forall r c c', rep r c -> rep r c' -> c_pos c = c_pos c'.
Proof.
  intros r c c' (b & R) (b' & R'). pose proof (rp_rest _ _ _ _ _ _ R) as K. rewrite (rp_rest _ _ _ _ _ _ R') in K. apply (f_equal (@length _)) in K.
  rewrite !skipn_length in K. pose proof (rp_len _ _ _ _ _ _ R). pose proof (rp_len _ _ _ _ _ _ R'). lia.
Qed.
Lemma rep_fun : forall r c c', rep r c -> rep r c' -> c = c'.
Proof.
  intros r c c' H H'. pose proof (rep_pos_fun _ _ _ H H') as Hp. destruct H as (b & R), H' as (b' & R').
  assert (b = b') as <- by (pose proof (rp_pos _ _ _ _ _ _ R); pose proof (rp_pos _ _ _ _ _ _ R'); lia).
  destruct c as [p ms], c' as [p' ms']. cbn [c_pos] in Hp. subst p'. f_equal.
  pose proof (rp_stack _ _ _ _ _ _ R) as K. rewrite (rp_stack _ _ _ _ _ _ R') in K.
  pose proof (rp_marks _ _ _ _ _ _ R) as M1. pose proof (rp_marks _ _ _ _ _ _ R') as M2. cbn [c_marks c_pos] in *. clear R R'.
  revert ms' K M2. induction ms as [|(m & q) ms IH]; intros [|(m' & q') ms'] K M2; try discriminate; [reflexivity|].
  cbn [map mark_of] in K. injection K as K1 K2 K3. inversion M1 as [|? ? (A1 & A2 & A3 & _) A4]. inversion M2 as [|? ? (B1 & B2 & B3 & _) B4]. cbn [fst snd] in *.
  subst m'. f_equal; [f_equal; lia|]. apply IH; assumption.
Qed.
Lemma gauge_look : forall {X Y} (loop : M X) (h : X -> Y) k debug r g, gauged r g ->
  (forall r1, gauged r1 (with_mark g) -> exists x r2, loop r1 = (x, r2) /\ gauged r2 (read_on k (with_mark g))) ->
  match mbind (m_mark debug) (fun m => mbind loop (fun b => mbind (m_reset m) (fun _ => ret (h b)))) r with
  | (Ok _, r') => gauged r' (look_on k g)
  | (Err _, r') => gauged r' (read_on k (with_mark g))
  | _ => True
  end.
Proof.
  intros X Y loop h k debug r g Hg Hl. destruct (gauge_mark debug r g Hg) as (r1 & K1 & K2). unfold mbind at 1. rewrite K1.
  destruct (Hl r1 K2) as (x & r2 & J1 & J2). unfold mbind at 1. rewrite J1. destruct x as [x|e|p|]; [|exact J2|exact I|exact I].
  destruct (gauge_top r2 _ (mark_id g) (g_pos g) (g_marks g) J2) as (r3 & I1 & I2). { rewrite read_on_marks. reflexivity. }
  unfold mbind. rewrite I1. cbn [ret]. exact I2.
Qed.
Lemma gauge_step : forall debug o r g a r', gauged r g -> perform1 debug o r = (Ok a, r') -> exists g', gstep T g o a g' /\ gauged r' g'.
Proof.
  intros debug o r g a r' Hg H. pose proof (gauged_rep _ _ Hg) as R. pose proof (rep_bound _ _ _ _ _ R) as Hb. cbn [at_gauge c_pos] in Hb.
  destruct o as [n| |m|m| | |s|n|n|]; cbn [perform1] in H.
  - pose proof (gauge_read debug n r g Hg) as Q. destruct (m_read_chars debug n r) as ([s|e|p|] & r1); cbn [lift] in H; try discriminate; injection H as <- <-.
    + eexists. split; [apply gs_read|exact (proj1 Q)].
    + eexists. split; [apply gs_read_fail|exact (proj1 Q)].
  - destruct (gauge_mark debug r g Hg) as (r1 & K1 & K2). rewrite K1 in H. injection H as <- <-. eexists. split; [apply gs_mark|exact K2].
  - destruct (gauge_reset m r g Hg) as (a' & r1 & g' & K1 & K2 & K3). rewrite K1 in H. injection H as <- <-. exists g'. auto.
  - destruct (gauge_unmark m r g Hg) as (a' & r1 & g' & K1 & K2 & K3). rewrite K1 in H. injection H as <- <-. exists g'. auto.
  - injection H as <- <-. eexists. split; [apply gs_location|exact Hg].
  - assert (Hk : forall r1, gauged r1 (with_mark g) -> exists x r2, m_read debug r1 = (x, r2) /\ gauged r2 (read_on (extent (skipn (g_pos g) T) OIsEof) (with_mark g))).
    { intros r1 H1. destruct (gauge_read1 debug r1 _ H1 ltac:(discriminate)) as (r2 & J1 & J2). eauto. }
    pose proof (gauge_look (m_read debug) (fun ch => match ch with None => true | Some _ => false end) _ debug r g Hg Hk) as Q.
    destruct (rep_is_eof T E l0 debug r _ R) as (a' & r1 & c' & K1 & K2 & K3 & _ & K4). rewrite K1 in H. injection H as <- <-. cbn [at_gauge c_pos] in K4.
    change (match m_is_eof debug r with (Ok _, r') => gauged r' (look_on (extent (skipn (g_pos g) T) OIsEof) g)
      | (Err _, r') => gauged r' (read_on (extent (skipn (g_pos g) T) OIsEof) (with_mark g)) | _ => True end) in Q.
    destruct (char_at T E l0 (g_pos g)) as [ch|e|p|] eqn:Ec; try contradiction.
    + destruct K4 as (K4 & _). rewrite K4 in Q, K1. cbn [lift] in K1. injection K1 as <-. eexists. split; [apply gs_look; [exact I|intros []]|exact Q].
    + destruct K4 as (K4 & _). rewrite K4 in Q, K1. cbn [lift] in K1. injection K1 as <-. eexists. split; [apply gs_look_fail; exact I|].
      unfold char_at in Ec. cbn [extent] in Q. destruct (skipn (g_pos g) T) as [|c rest] eqn:Es; [|discriminate].
      pose proof (skipn_nil_len _ _ Es Hb) as Hl. rewrite Hl, Nat.sub_diag. rewrite read_on_0. exact Q.
  - assert (Hk : forall r1, gauged r1 (with_mark g) -> exists x r2, m_prefix_loop debug s r1 = (x, r2) /\ gauged r2 (read_on (extent (skipn (g_pos g) T) (OPrefix s)) (with_mark g))).
    { intros r1 H1. exact (gauge_prefix_loop debug s r1 _ H1 ltac:(discriminate)). }
    pose proof (gauge_look (m_prefix_loop debug s) (fun b => b) _ debug r g Hg Hk) as Q.
    destruct (rep_prefix T E l0 debug s r _ R) as (a' & r1 & c' & K1 & K2 & K3 & _ & K4). rewrite K1 in H. injection H as <- <-. cbn [at_gauge c_pos c_marks] in K4.
    change (match m_prefix_matches debug s r with (Ok _, r') => gauged r' (look_on (extent (skipn (g_pos g) T) (OPrefix s)) g)
      | (Err _, r') => gauged r' (read_on (extent (skipn (g_pos g) T) (OPrefix s)) (with_mark g)) | _ => True end) in Q.
    destruct (fst (p_prefix T E l0 s (g_pos g))) as [b|e|p|]; try contradiction.
    + destruct K4 as (K4 & _). rewrite K4 in Q, K1. cbn [lift] in K1. injection K1 as <-. eexists. split; [apply gs_look; [exact I|intros []]|exact Q].
    + destruct K4 as (K4 & m & K5). rewrite K4 in Q, K1. cbn [lift] in K1. injection K1 as <-. eexists. split; [apply gs_look_fail; exact I|].
      pose proof (rep_pos_fun _ _ _ (gauged_rep _ _ Q) K3) as Hp. rewrite K5 in Hp. cbn [at_gauge c_pos] in Hp. rewrite read_on_pos in Hp. cbn [with_mark g_pos] in Hp.
      rewrite <- Hp, Nat.add_comm, Nat.add_sub. exact Q.
  - assert (Hk : forall r1, gauged r1 (with_mark g) -> exists x r2, m_peek_loop debug n r1 = (x, r2) /\ gauged r2 (read_on (extent (skipn (g_pos g) T) (OPeek n)) (with_mark g))).
    { intros r1 H1. exact (gauge_peek_loop debug n r1 _ H1 ltac:(discriminate)). }
    pose proof (gauge_look (m_peek_loop debug n) (fun b => b) _ debug r g Hg Hk) as Q.
    destruct (rep_peek T E l0 debug n r _ R) as (a' & r1 & c' & K1 & K2 & K3 & _ & K4). rewrite K1 in H. injection H as <- <-. cbn [at_gauge c_pos c_marks] in K4.
    change (match m_peek debug n r with (Ok _, r') => gauged r' (look_on (extent (skipn (g_pos g) T) (OPeek n)) g)
      | (Err _, r') => gauged r' (read_on (extent (skipn (g_pos g) T) (OPeek n)) (with_mark g)) | _ => True end) in Q.
    destruct (fst (p_peek T E l0 n (g_pos g))) as [b|e|p|]; try contradiction.
    + destruct K4 as (K4 & _). rewrite K4 in Q, K1. cbn [lift] in K1. injection K1 as <-. eexists. split; [apply gs_look; [exact I|intros []]|exact Q].
    + destruct K4 as (K4 & m & K5). rewrite K4 in Q, K1. cbn [lift] in K1. injection K1 as <-. eexists. split; [apply gs_look_fail; exact I|].
      pose proof (rep_pos_fun _ _ _ (gauged_rep _ _ Q) K3) as Hp. rewrite K5 in Hp. cbn [at_gauge c_pos] in Hp. rewrite read_on_pos in Hp. cbn [with_mark g_pos] in Hp.
      rewrite <- Hp, Nat.add_comm, Nat.add_sub. exact Q.
  - pose proof (gauge_skip_loop debug (S n) n r g Hg ltac:(lia)) as Q. unfold m_skip, mbind in H.
    destruct (m_skip_loop debug (S n) n r) as ([x|e|p|] & r1); cbn [lift ret] in H; try discriminate; injection H as <- <-;
      (eexists; split; [apply gs_on; exact I|exact Q]).
  - assert (Hf : length (skipn (g_pos g) T) < S (length (ub_buf (mr_ub r)) + length (concat (s_chunks (mr_src r))))).
    { destruct R as (base & R). change (g_pos g) with (c_pos (at_gauge g)). rewrite <- (rp_rest _ _ _ _ _ _ R), app_length, skipn_length. lia. }
    pose proof (gauge_all debug _ r g Hg Hf) as Q.
    destruct (m_read_all debug _ r) as ([x|e|p|] & r1); cbn [lift] in H; try discriminate; injection H as <- <-;
      (eexists; split; [apply gs_on; exact I|exact Q]).
Qed.
Lemma gauge_stops : forall debug o r g, gauged r g -> (forall a, fst (perform1 debug o r) <> Ok a) <-> debug = true /\ unguarded T g o.
Proof.
  intros debug o r g Hg. pose proof (gauged_rep _ _ Hg) as R. split.
  - intros H. destruct (rep_step T E l0 debug o r _ R) as [(a & r' & c' & K & _)|(r' & K & Hd & _)]; [rewrite K in H; cbn in H; exfalso; exact (H a eq_refl)|].
    destruct o as [n| |m|m| | |s|n|n|]; cbn [perform1] in *.
    + pose proof (gauge_read debug n r g Hg) as Q. destruct (m_read_chars debug n r) as ([s|e|p|] & r1); cbn [lift] in K; try discriminate. tauto.
    + destruct (gauge_mark debug r g Hg) as (r1 & K1 & _). rewrite K1 in K. discriminate.
    + destruct (gauge_reset m r g Hg) as (a' & r1 & g' & K1 & _). rewrite K1 in K. discriminate.
    + destruct (gauge_unmark m r g Hg) as (a' & r1 & g' & K1 & _). rewrite K1 in K. discriminate.
    + discriminate.
    + destruct (rep_is_eof T E l0 debug r _ R) as (a' & r1 & c' & K1 & _). rewrite K1 in K. discriminate.
    + destruct (rep_prefix T E l0 debug s r _ R) as (a' & r1 & c' & K1 & _). rewrite K1 in K. discriminate.
    + destruct (rep_peek T E l0 debug n r _ R) as (a' & r1 & c' & K1 & _). rewrite K1 in K. discriminate.
    + pose proof (gauge_skip_loop debug (S n) n r g Hg ltac:(lia)) as Q. unfold m_skip, mbind in K.
      destruct (m_skip_loop debug (S n) n r) as ([x|e|p|] & r1); cbn [lift ret] in K; try discriminate. exact Q.
    + assert (Hf : length (skipn (g_pos g) T) < S (length (ub_buf (mr_ub r)) + length (concat (s_chunks (mr_src r))))).
      { destruct R as (base & R). change (g_pos g) with (c_pos (at_gauge g)). rewrite <- (rp_rest _ _ _ _ _ _ R), app_length, skipn_length. lia. }
      pose proof (gauge_all debug _ r g Hg Hf) as Q. destruct (m_read_all debug _ r) as ([x|e|p|] & r1); cbn [lift] in K; try discriminate. exact Q.
  - intros (-> & U) a Ha. pose proof U as (U1 & U2 & U3 & U4 & U5).
    assert (Hk : forall k, 0 < k -> exists r', m_read_chars true k r = (Panic PDebugAssert, r')).
    { intros k Hk. apply (gauge_trips k r g Hg). repeat split; assumption. }
    destruct o as [n| |m|m| | |s|n|n|]; try contradiction; cbn [perform1] in Ha.
    + destruct (Hk n U5) as (r' & K). rewrite K in Ha. discriminate.
    + destruct n as [|n]; [lia|]. unfold m_skip in Ha. cbn [m_skip_loop] in Ha.
      destruct (Hk (Nat.min (S n) io_buffer)) as (r' & K). { assert (0 < io_buffer) by (vm_compute; lia). lia. }
      unfold mbind in Ha. rewrite K in Ha. discriminate.
    + destruct (Hk io_buffer) as (r' & K). { vm_compute. lia. } cbn [m_read_all] in Ha. unfold mbind in Ha. rewrite K in Ha. discriminate.
Qed.
Lemma gauge_new : forall r, rep r (Cur 0 []) -> ub_buf (mr_ub r) = [] -> ub_head (mr_ub r) = 0%N -> gauged r g_start.
Proof.
  intros r R Hb Hh. apply gauged_of; [exact R|..]; destruct R as (base & R); pose proof (rp_next _ _ _ _ _ _ R) as K; rewrite Hb in *; cbn in K |- *; rewrite ?Hh; lia.
Qed.
Lemma gauge_run : forall debug os r g an r', gauged r g -> perform debug os r = (an, None, r') ->
  exists g', gsteps T g os an g' /\ csteps T E l0 (at_gauge g) os an (at_gauge g') /\ gauged r' g'.
Proof.
  intros debug os. induction os as [|o os IH]; intros r g an r' Hg H; cbn [perform] in H.
  - injection H as <- <-. exists g. split; [constructor|]. split; [constructor|exact Hg].
  - destruct (perform1 debug o r) as (x & r1) eqn:E1. destruct x as [a|e|p|]; try discriminate.
    destruct (perform debug os r1) as ((l & x) & r2) eqn:E2. injection H as <- -> <-.
    destruct (gauge_step _ _ _ _ _ _ Hg E1) as (g1 & A1 & A2). destruct (IH _ _ _ _ A2 E2) as (g2 & B1 & B2 & B3). exists g2.
    split; [econstructor; eassumption|]. split; [|exact B3]. econstructor; [|exact B2].
    destruct (rep_step T E l0 debug o r _ (gauged_rep _ _ Hg)) as [(a' & r1' & c' & K1 & K2 & K3 & _)|(r1' & K1 & _)]; rewrite K1 in E1; [|discriminate].
    injection E1 as -> ->. rewrite (rep_fun _ _ _ (gauged_rep _ _ A2) K3). exact K2.
Qed.
End Gauged.

(** The gauge is determined by the answers. *)
Lemma gstep_fun : forall T g o a g1 g2, gstep T g o a g1 -> gstep T g o a g2 -> g1 = g2.
Proof.
  intros T g o a g1 g2 H1 H2. inversion H1; subst; inversion H2; subst; try reflexivity; try contradiction; try congruence;
    repeat match goal with K : _ \/ _ |- _ => destruct K; subst end; try discriminate; try contradiction; try congruence;
    repeat match goal with
    | A : g_marks g = _ ++ (?m, ?p) :: _, B : g_marks g = _ ++ (?m, ?q) :: _, C : ~ In ?m _, D : ~ In ?m _ |- _ =>
        rewrite A in B; destruct (split_once _ _ _ _ _ _ _ B ltac:(assumption) ltac:(assumption)) as (? & ?); subst; reflexivity
    | K : ~ failed (AFail _) |- _ => exfalso; apply K; exact I
    | K : ahead_only ?o, L : takes_on ?o |- _ => destruct o; contradiction
    end.
Qed.
Lemma gsteps_fun : forall T g os an g1, gsteps T g os an g1 -> forall g2, gsteps T g os an g2 -> g1 = g2.
Proof.
  intros T g os an g1 H. induction H as [g|g o a g1 os an g2 H1 H2 IH]; intros g3 H3; inversion H3; subst; [reflexivity|].
  match goal with K : gstep _ g o a ?x |- _ => rewrite (gstep_fun _ _ _ _ _ _ K H1) in * end. apply IH. assumption.
Qed.
