(** The reader with integers of their width agrees with the unbounded one as long as the
    numbers fit. *)
From Coq Require Import String List NArith Arith Bool Lia.
From Verif Require Import Base Io SpecText SpecIo TextFacts TokRun IoFacts Narrow NarrowFacts.
Import ListNotations.
Open Scope N_scope.

Definition size {A} (l : list A) : N := N.of_nat (length l).
(** What the stream position can still reach, and what is still to be read. *)
Definition total (r : mreader) : N := ub_head (mr_ub r) + size (ub_buf (mr_ub r)) + size (concat (s_chunks (mr_src r))).
Definition ahead (r : mreader) : N :=
  size (ub_buf (mr_ub r)) - N.of_nat (ub_next (mr_ub r)) + size (concat (s_chunks (mr_src r))).
Definition below (L : N) (l : location) (n : N) : Prop := l_lines l + n <= L /\ l_columns l + n <= L.
Record thin (K L : N) (r : mreader) : Prop := Thin {
  th_total : total r <= K;
  th_next : N.of_nat (ub_next (mr_ub r)) <= size (ub_buf (mr_ub r));
  th_loc : below L (ub_loc (mr_ub r)) (ahead r);
  th_marks : Forall (fun pl => below L (snd pl) (total r - fst pl)) (ub_stack (mr_ub r)) }.

Lemma below_le : forall L l n k, below L l n -> k <= n -> below L l k.
Proof. unfold below. intros. lia. Qed.
Lemma below_room : forall L l n, below L l n -> L < u64_limit -> room l n.
Proof. unfold below, room. intros. lia. Qed.
Lemma below_push : forall L l c n, below L l (1 + n) -> below L (loc_push l c) n.
Proof. unfold below, loc_push. intros L l c n H. destruct (c =? c_lf); cbn [l_lines l_columns]; lia. Qed.
Lemma below_str : forall L s l n, below L l (size s + n) -> below L (loc_push_str l s) n.
Proof.
  induction s as [|c s IH]; intros l n H; cbn [size length] in *; [eapply below_le; [exact H|unfold size; cbn; lia]|].
  cbn. apply IH. apply below_push. eapply below_le; [exact H|]. unfold size. cbn [length]. lia.
Qed.
Lemma size_app : forall {A} (a b : list A), size (a ++ b) = size a + size b.
Proof. intros. unfold size. rewrite app_length. lia. Qed.
Lemma str64 : forall L s l n, below L l (size s + n) -> L < u64_limit -> loc_push_str64 l s = Some (loc_push_str l s).
Proof.
  intros L s l n H HL. apply room_str0. eapply room_le; [eapply below_room; [exact H|exact HL]|]. unfold size. lia.
Qed.
Lemma marks_less : forall L k k' st, Forall (fun pl : N * location => below L (snd pl) (k - fst pl)) st -> k' <= k ->
  Forall (fun pl => below L (snd pl) (k' - fst pl)) st.
Proof. intros L k k' st H Hk. eapply Forall_impl; [|exact H]. cbn. intros a Ha. eapply below_le; [exact Ha|lia]. Qed.

Section Debug.
Variable debug : bool.

(** Agreement of an operation, and that the numbers still fit afterwards. *)
Definition agree {A} (m : M A) (m64 : MO A) : Prop :=
  forall K L r, K < u64_limit -> L < u64_limit -> thin K L r -> m64 r = Some (m r) /\ thin K L (snd (m r)).

Lemma agree_ret : forall A (a : A), agree (ret a) (ret64 a).
Proof. intros A a K L r HK HL H. split; [reflexivity|exact H]. Qed.
Lemma agree_fuel : forall A, agree (@no_fuel A) no_fuel64.
Proof. intros A K L r HK HL H. split; [reflexivity|exact H]. Qed.
Lemma agree_bind : forall A B (m : M A) m64 (f : A -> M B) f64, agree m m64 -> (forall a, agree (f a) (f64 a)) ->
  agree (mbind m f) (mbind64 m64 f64).
Proof.
  intros A B m m64 f f64 Hm Hf K L r HK HL H. destruct (Hm K L r HK HL H) as (E & T). unfold mbind, mbind64. rewrite E.
  destruct (m r) as ([a|e|p|] & r'); cbn [snd] in T; [apply Hf; assumption|split; [reflexivity|exact T]..].
Qed.
Lemma agree_loc : agree m_location m_location64.
Proof. intros K L r HK HL H. split; [reflexivity|exact H]. Qed.

Lemma read_fits : forall n K L r, K < u64_limit -> L < u64_limit -> thin K L r ->
  m_read_chars64 debug n r = Some (m_read_chars debug n r) /\ thin K L (snd (m_read_chars debug n r)) /\
  (forall s r', m_read_chars debug n r = (Ok s, r') -> ahead r' + size s <= ahead r).
Proof.
  intros n K L r HK HL [H1 H2 H3 H4]. unfold m_read_chars, m_read_chars64. unfold total in H1, H4. unfold ahead in H3.
  destruct (ub_remains (mr_ub r)) eqn:Er.
  - unfold ub_remains in Er. apply Nat.ltb_lt in Er. unfold ub_read, ub_read64.
    set (out := firstn n (skipn (ub_next (mr_ub r)) (ub_buf (mr_ub r)))).
    assert (Ho : (ub_next (mr_ub r) + length out <= length (ub_buf (mr_ub r)))%nat).
    { unfold out. rewrite firstn_length, skipn_length. lia. }
    set (u1 := UB (ub_loc (mr_ub r)) (ub_buf (mr_ub r)) (ub_next (mr_ub r) + length out) (ub_head (mr_ub r)) (ub_stack (mr_ub r))).
    assert (El : ub_loc (if ub_remains u1 then u1 else ub_truncate u1) = ub_loc (mr_ub r)).
    { unfold ub_truncate. destruct (ub_remains u1); [reflexivity|]. destruct (ub_stack u1); reflexivity. }
    set (left := size (ub_buf (mr_ub r)) - N.of_nat (ub_next (mr_ub r) + length out) + size (concat (s_chunks (mr_src r)))).
    assert (Hb : below L (ub_loc (mr_ub r)) (size out + left)).
    { eapply below_le; [exact H3|]. unfold left, size in *. lia. }
    rewrite El, (str64 L out _ left Hb HL). cbn [obind]. split; [reflexivity|]. cbn [snd].
    apply below_str in Hb. destruct (ub_remains u1) eqn:Er1; [|unfold ub_truncate; cbn [u1 ub_stack]; destruct (ub_stack (mr_ub r)) eqn:Es].
    + split; [|intros s r' [= <- <-]; unfold ahead; cbn [mr_ub mr_src u1 ub_buf ub_next]; unfold size in *; lia].
      constructor; unfold total, ahead; cbn [mr_ub mr_src u1 ub_head ub_buf ub_next ub_stack ub_loc]; try assumption. unfold size. lia.
    + unfold ub_remains in Er1. apply Nat.ltb_ge in Er1. cbn [u1 ub_next ub_buf] in Er1.
      split; [|intros s r' [= <- <-]; unfold ahead; cbn [mr_ub mr_src u1 ub_buf ub_next]; unfold size in *; cbn [length]; lia].
      constructor; unfold total, ahead; cbn [mr_ub mr_src u1 ub_head ub_buf ub_next ub_stack ub_loc]; unfold size in *; cbn [length]; try lia; [|constructor].
      eapply below_le; [exact Hb|]. unfold left. lia.
    + split; [|intros s r' [= <- <-]; unfold ahead; cbn [mr_ub mr_src u1 ub_buf ub_next]; unfold size in *; lia].
      constructor; unfold total, ahead; cbn [mr_ub mr_src u1 ub_head ub_buf ub_next ub_stack ub_loc]; try assumption. unfold size. lia.
  - unfold ub_remains in Er. apply Nat.ltb_ge in Er. unfold src_read. pose proof (src_chunks_concat (s_chunks (mr_src r))) as Hc.
    destruct (src_chunks (s_chunks (mr_src r))) as [|ch cs].
    + cbn in Hc. assert (T : thin K L (MR (Src [] (s_end (mr_src r))) (mr_ub r))).
      { constructor; unfold total, ahead; cbn [mr_ub mr_src s_chunks concat]; rewrite ?Hc; assumption. }
      assert (Ha : ahead (MR (Src [] (s_end (mr_src r))) (mr_ub r)) = ahead r) by (unfold ahead; cbn [mr_ub mr_src s_chunks concat]; rewrite <- Hc; reflexivity).
      destruct (s_end (mr_src r)); (split; [reflexivity|split; [exact T|]]); [discriminate|]. intros s r' [= <- <-]. rewrite Ha. unfold size. cbn. lia.
    + cbn [concat] in Hc. assert (Hsz : size (firstn n ch) + size (skipn n ch ++ concat cs) = size (concat (s_chunks (mr_src r)))).
      { rewrite <- Hc, <- size_app, app_assoc, firstn_skipn. reflexivity. }
      destruct (firstn n ch) as [|x0 out0] eqn:Eout.
      * split; [reflexivity|]. change (size []) with 0 in Hsz. cbn [snd]. split.
        -- constructor; unfold total, ahead; cbn [mr_ub mr_src s_chunks concat]; rewrite ?N.add_0_l in Hsz; rewrite ?Hsz; assumption.
        -- intros s r' [= <- <-]. unfold ahead. cbn [mr_ub mr_src s_chunks concat]. unfold size in *. cbn [length]. lia.
      * cbn iota. set (out := x0 :: out0) in *. clearbody out. clear Eout x0 out0.
        assert (Hb : below L (ub_loc (mr_ub r)) (size out + (size (ub_buf (mr_ub r)) - N.of_nat (ub_next (mr_ub r)) + size (skipn n ch ++ concat cs)))).
        { eapply below_le; [exact H3|]. lia. }
        pose proof (str64 L out _ _ Hb HL) as Es. apply below_str in Hb. unfold ub_append64, ub_append. destruct (ub_stack (mr_ub r)) as [|m ms] eqn:Est.
        -- match goal with |- context [if ?b then _ else _] => destruct b end.
           ++ cbn [obind]. split; [reflexivity|]. cbn [snd]. split; [|discriminate].
              constructor; unfold total, ahead; cbn [mr_ub mr_src s_chunks concat]; [lia|assumption| |rewrite Est; constructor].
              eapply below_le; [exact H3|]. lia.
           ++ unfold add64. destruct (N.ltb_spec (ub_head (mr_ub r) + N.of_nat (length out)) u64_limit) as [_|B]; [|unfold size in *; lia].
              cbn [obind]. rewrite Es. cbn [obind]. split; [reflexivity|]. cbn [snd]. split.
              ** constructor; unfold total, ahead; cbn [mr_ub mr_src ub_head ub_buf ub_next ub_stack ub_loc s_chunks concat]; [unfold size in *; lia|assumption|exact Hb|constructor].
              ** intros s r' [= <- <-]. unfold ahead. cbn [mr_ub mr_src ub_buf ub_next s_chunks concat]. lia.
        -- destruct (debug && ub_remains (mr_ub r)).
           ++ cbn [obind]. split; [reflexivity|]. cbn [snd]. split; [|discriminate].
              constructor; unfold total, ahead; cbn [mr_ub mr_src s_chunks concat]; [lia|assumption| |rewrite Est; eapply marks_less; [exact H4|lia]].
              eapply below_le; [exact H3|]. lia.
           ++ rewrite Es. cbn [obind]. split; [reflexivity|]. cbn [snd]. split.
              ** constructor; unfold total, ahead; cbn [mr_ub mr_src ub_head ub_buf ub_next ub_stack ub_loc s_chunks concat]; rewrite size_app.
                 --- lia.
                 --- unfold size in *. lia.
                 --- eapply below_le; [exact Hb|]. unfold size in *. lia.
                 --- eapply marks_less; [exact H4|lia].
              ** intros s r' [= <- <-]. unfold ahead. cbn [mr_ub mr_src ub_buf ub_next s_chunks concat]. rewrite size_app. unfold size in *. lia.
Qed.
Lemma agree_read_chars : forall n, agree (m_read_chars debug n) (m_read_chars64 debug n).
Proof. intros n K L r HK HL H. destruct (read_fits n K L r HK HL H) as (A & B & _). auto. Qed.
Lemma agree_mark : agree (m_mark debug) (m_mark64 debug).
Proof.
  intros K L r HK HL [H1 H2 H3 H4]. unfold m_mark, m_mark64, with_ub, with_ub64, ub_mark64, ub_mark, ub_position64, add64.
  unfold total in H1. destruct (N.ltb_spec (ub_head (mr_ub r) + N.of_nat (ub_next (mr_ub r))) u64_limit) as [_|B]; [|lia].
  cbn [obind]. fold (ub_position (mr_ub r)). match goal with |- context [if ?b then _ else _] => destruct b end.
  - cbn [obind]. split; [reflexivity|]. constructor; assumption.
  - cbn [obind]. split; [reflexivity|]. cbn [snd]. constructor; unfold total, ahead; cbn [mr_ub mr_src ub_head ub_buf ub_next ub_stack ub_loc]; try assumption.
    constructor; [|exact H4]. cbn [fst snd]. eapply below_le; [exact H3|]. unfold ahead, ub_position. lia.
Qed.
Lemma find_in : forall m st l b, find_mark m st = Some (l, b) -> In (m, l) st /\ incl b st.
Proof.
  induction st as [|(p & k) st IH]; cbn; intros l b H; [discriminate|]. destruct (N.eqb_spec p m) as [->|Hp].
  - injection H as <- <-. split; [left; reflexivity|]. intros x Hx. right. exact Hx.
  - destruct (p <? m); [discriminate|]. destruct (IH l b H) as (A & B). split; [right; exact A|]. intros x Hx. right. exact (B x Hx).
Qed.
Lemma remove_fits : forall m K L r, K < u64_limit -> L < u64_limit -> thin K L r ->
  ub_remove_mark64 m (mr_ub r) = Some (ub_remove_mark m (mr_ub r)) /\
  (forall l u, ub_remove_mark m (mr_ub r) = Ok (l, u) -> below L l (total r - m) /\ ub_head (mr_ub r) <= m /\ m <= ub_head (mr_ub r) + size (ub_buf (mr_ub r)) /\
     exists st, u = UB (ub_loc (mr_ub r)) (ub_buf (mr_ub r)) (ub_next (mr_ub r)) (ub_head (mr_ub r)) st /\ incl st (ub_stack (mr_ub r))).
Proof.
  intros m K L r HK HL [H1 H2 H3 H4]. unfold ub_remove_mark64, ub_remove_mark. fold (size (ub_buf (mr_ub r))).
  destruct (N.ltb_spec m (ub_head (mr_ub r))) as [|Hm]; cbn [orb]; [split; [reflexivity|discriminate]|].
  unfold add64. unfold total in H1. destruct (N.ltb_spec (ub_head (mr_ub r) + size (ub_buf (mr_ub r))) u64_limit) as [_|B]; [|lia].
  cbn [obind]. split; [reflexivity|]. intros l u H. destruct (N.ltb_spec (ub_head (mr_ub r) + size (ub_buf (mr_ub r))) m); [discriminate|].
  destruct (find_mark m (ub_stack (mr_ub r))) as [(l1 & st)|] eqn:Ef; [|discriminate]. injection H as <- <-.
  destruct (find_in _ _ _ _ Ef) as (A & B). rewrite Forall_forall in H4. pose proof (H4 _ A) as C. cbn [fst snd] in C.
  split; [exact C|]. split; [exact Hm|]. split; [assumption|]. eauto.
Qed.
Lemma agree_unmark : forall m, agree (m_unmark m) (m_unmark64 m).
Proof.
  intros m K L r HK HL H. destruct (remove_fits m K L r HK HL H) as (E & C). destruct H as [H1 H2 H3 H4].
  unfold m_unmark, m_unmark64, with_ub, with_ub64. rewrite E. unfold rbind, bind. destruct (ub_remove_mark m (mr_ub r)) as [(l & u)|e|p|]; cbn [obind].
  - split; [reflexivity|]. destruct (C l u eq_refl) as (C1 & C2 & C3 & st & -> & C4). cbn [snd]. constructor; unfold total, ahead; cbn [mr_ub mr_src ub_head ub_buf ub_next ub_stack ub_loc]; try assumption.
    rewrite Forall_forall in *. intros x Hx. exact (H4 x (C4 x Hx)).
  - split; [reflexivity|]. constructor; assumption.
  - split; [reflexivity|]. constructor; assumption.
  - split; [reflexivity|]. constructor; assumption.
Qed.
Lemma reset_fits : forall m K L r, K < u64_limit -> L < u64_limit -> thin K L r ->
  m_reset64 m r = Some (m_reset m r) /\ thin K L (snd (m_reset m r)) /\
  (forall n r', m_reset m r = (Ok n, r') -> ahead r' = total r - m).
Proof.
  intros m K L r HK HL H. destruct (remove_fits m K L r HK HL H) as (E & C). destruct H as [H1 H2 H3 H4].
  unfold m_reset, m_reset64, with_ub, with_ub64, ub_revert64, ub_revert. rewrite E. unfold rbind, bind.
  destruct (ub_remove_mark m (mr_ub r)) as [(l & u)|e|p|]; cbn [obind].
  - destruct (C l u eq_refl) as (C1 & C2 & C3 & st & -> & C4). unfold ub_position64, ub_position, add64. cbn [ub_head ub_next].
    unfold total in H1. destruct (N.ltb_spec (ub_head (mr_ub r) + N.of_nat (ub_next (mr_ub r))) u64_limit) as [_|B]; [|lia]. cbn [obind].
    destruct ((m <? ub_head (mr_ub r)) || (ub_head (mr_ub r) + N.of_nat (ub_next (mr_ub r)) <? m)); cbn [obind].
    + split; [reflexivity|]. split; [|discriminate]. constructor; assumption.
    + split; [reflexivity|]. cbn [snd]. split.
      * constructor; unfold total, ahead; cbn [mr_ub mr_src ub_head ub_buf ub_next ub_stack ub_loc]; rewrite ?N2Nat.id; [assumption|lia| |].
        -- eapply below_le; [exact C1|]. unfold total. lia.
        -- rewrite Forall_forall in *. intros x Hx. exact (H4 x (C4 x Hx)).
      * intros n r' [= <- <-]. unfold ahead, total. cbn [mr_ub mr_src ub_head ub_buf ub_next ub_stack ub_loc]. rewrite N2Nat.id. lia.
  - split; [reflexivity|]. split; [|discriminate]. constructor; assumption.
  - split; [reflexivity|]. split; [|discriminate]. constructor; assumption.
  - split; [reflexivity|]. split; [|discriminate]. constructor; assumption.
Qed.
Lemma agree_reset : forall m, agree (m_reset m) (m_reset64 m).
Proof. intros m K L r HK HL H. destruct (reset_fits m K L r HK HL H) as (A & B & _). auto. Qed.

Lemma agree_read1 : agree (m_read debug) (m_read64 debug).
Proof. apply agree_bind; [apply agree_read_chars|]. intros a. apply agree_ret. Qed.
Lemma agree_read_all : forall f, agree (m_read_all debug f) (m_read_all64 debug f).
Proof.
  induction f as [|f IH]; [apply agree_fuel|]. cbn [m_read_all m_read_all64]. apply agree_bind; [apply agree_read_chars|]. intros [|x a]; [apply agree_ret|].
  apply agree_bind; [exact IH|]. intros b. apply agree_ret.
Qed.
Lemma agree_is_eof : agree (m_is_eof debug) (m_is_eof64 debug).
Proof.
  apply agree_bind; [apply agree_mark|]. intros m. apply agree_bind; [apply agree_read1|]. intros ch.
  apply agree_bind; [apply agree_reset|]. intros n. apply agree_ret.
Qed.
Lemma agree_prefix_loop : forall w, agree (m_prefix_loop debug w) (m_prefix_loop64 debug w).
Proof.
  induction w as [|p w IH]; [apply agree_ret|]. cbn [m_prefix_loop m_prefix_loop64]. apply agree_bind; [apply agree_read1|].
  intros [c|]; [|apply agree_ret]. destruct (c =? p); [exact IH|apply agree_ret].
Qed.
Lemma agree_prefix : forall w, agree (m_prefix_matches debug w) (m_prefix_matches64 debug w).
Proof.
  intros w. apply agree_bind; [apply agree_mark|]. intros m. apply agree_bind; [apply agree_prefix_loop|]. intros b.
  apply agree_bind; [apply agree_reset|]. intros n. apply agree_ret.
Qed.
Lemma agree_peek_loop : forall n, agree (m_peek_loop debug n) (m_peek_loop64 debug n).
Proof.
  induction n as [|n IH]; [apply agree_ret|]. cbn [m_peek_loop m_peek_loop64]. apply agree_bind; [apply agree_read1|].
  intros [c|]; [|apply agree_ret]. apply agree_bind; [exact IH|]. intros s. apply agree_ret.
Qed.
Lemma agree_peek : forall n, agree (m_peek debug n) (m_peek64 debug n).
Proof.
  intros n. apply agree_bind; [apply agree_mark|]. intros m. apply agree_bind; [apply agree_peek_loop|]. intros b.
  apply agree_bind; [apply agree_reset|]. intros k. apply agree_ret.
Qed.
Lemma agree_skip_loop : forall f n, agree (m_skip_loop debug f n) (m_skip_loop64 debug f n).
Proof.
  induction f as [|f IH]; intros n; [apply agree_fuel|]. cbn [m_skip_loop m_skip_loop64]. destruct n as [|n]; [apply agree_ret|].
  apply agree_bind; [apply agree_read_chars|]. intros [|x a]; [apply agree_ret|apply IH].
Qed.
Lemma agree_skip : forall n, agree (m_skip debug n) (m_skip64 debug n).
Proof. intros n. apply agree_bind; [apply agree_skip_loop|]. intros k. apply agree_ret. Qed.
Lemma thin_new : forall L l s, below L l (size (concat (s_chunks s))) -> thin (size (concat (s_chunks s))) L (mr_new l s).
Proof.
  intros L l s H. constructor; unfold total, ahead; cbn [mr_new mr_ub mr_src ub_head ub_buf ub_next ub_stack ub_loc].
  - change (size []) with 0. lia.
  - change (size []) with 0. lia.
  - eapply below_le; [exact H|]. change (size []) with 0. lia.
  - constructor.
Qed.
End Debug.

(** * Histories of calls on a reader *)
Definition lift64 {A} (f : A -> answer) (x : option (res A * mreader)) : option (res answer * mreader) :=
  match x with Some x => Some (lift f x) | None => None end.
Definition perform1_64 (debug : bool) (o : op) (r : mreader) : option (res answer * mreader) :=
  match o with
  | ORead n => lift64 SpecIo.AText (m_read_chars64 debug n r)
  | OMark => lift64 AId (m_mark64 debug r)
  | OReset m => lift64 ACount (m_reset64 m r)
  | OUnmark m => lift64 (fun _ => ADone) (m_unmark64 m r)
  | OLocation => lift64 AWhere (m_location64 r)
  | OIsEof => lift64 ABool (m_is_eof64 debug r)
  | OPrefix s => lift64 ABool (m_prefix_matches64 debug s r)
  | OPeek n => lift64 SpecIo.AText (m_peek64 debug n r)
  | OSkip n => lift64 ACount (m_skip64 debug n r)
  | OReadAll =>
      lift64 SpecIo.AText (m_read_all64 debug (S (length (ub_buf (mr_ub r)) + length (concat (s_chunks (mr_src r))))) r)
  end.
Fixpoint perform64 (debug : bool) (os : list op) (r : mreader) : option (list answer * option (res answer) * mreader) :=
  match os with
  | [] => Some ([], None, r)
  | o :: os =>
      match perform1_64 debug o r with
      | None => None
      | Some (Ok a, r1) =>
          match perform64 debug os r1 with
          | None => None
          | Some (l, e, r2) => Some (a :: l, e, r2)
          end
      | Some (x, r1) => Some ([], Some x, r1)
      end
  end.
Lemma lift_fits : forall A (f : A -> answer) (m : M A) m64 K L r, agree m m64 -> K < u64_limit -> L < u64_limit -> thin K L r ->
  lift64 f (m64 r) = Some (lift f (m r)) /\ thin K L (snd (lift f (m r))).
Proof.
  intros A f m m64 K L r Ha HK HL H. destruct (Ha K L r HK HL H) as (E & T). rewrite E. split; [reflexivity|].
  destruct (m r) as (x & r'). exact T.
Qed.
Lemma perform1_fits : forall debug o K L r, K < u64_limit -> L < u64_limit -> thin K L r ->
  perform1_64 debug o r = Some (perform1 debug o r) /\ thin K L (snd (perform1 debug o r)).
Proof.
  intros debug o K L r HK HL H. destruct o; cbn [perform1 perform1_64]; apply lift_fits; try assumption.
  - apply agree_read_chars.
  - apply agree_mark.
  - apply agree_reset.
  - apply agree_unmark.
  - apply agree_loc.
  - apply agree_is_eof.
  - apply agree_prefix.
  - apply agree_peek.
  - apply agree_skip.
  - apply agree_read_all.
Qed.
Lemma perform_fits : forall debug os K L r, K < u64_limit -> L < u64_limit -> thin K L r ->
  perform64 debug os r = Some (perform debug os r) /\ thin K L (snd (perform debug os r)).
Proof.
  intros debug. induction os as [|o os IH]; intros K L r HK HL H; [split; [reflexivity|exact H]|].
  destruct (perform1_fits debug o K L r HK HL H) as (E & T). cbn [perform perform64]. rewrite E. destruct (perform1 debug o r) as (x & r1). cbn [snd] in T.
  destruct x as [a|e|p|]; [|split; [reflexivity|exact T]..]. destruct (IH K L r1 HK HL T) as (E1 & T1). rewrite E1.
  destruct (perform debug os r1) as ((l & e) & r2). split; [reflexivity|exact T1].
Qed.
