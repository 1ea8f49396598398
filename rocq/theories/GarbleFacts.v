(** Decoders that stop at garbled input, and UTF-8. *)
From Coq Require Import String List NArith Arith Bool Lia ZArith Zify ZifyN.
From Verif Require Import Base Tokenizer Ast Lex Syntax Io Decode Read SpecText SpecTok SpecLex SpecIo SpecDecode SpecUtf8
  TextFacts TokRun LexRun IoFacts DecodeFacts.
Import ListNotations.
Open Scope nat_scope.

Lemma text_app : forall a b, text_of (a ++ b) = text_of a ++ text_of b.
Proof. intros. apply map_app. Qed.
Lemma mark_app : forall a b, has_mark (a ++ b) = (has_mark a || has_mark b)%bool.
Proof. intros. apply existsb_app. Qed.
Lemma reporting_incremental : forall C D, reporting C D -> incremental C (fun st bs => text_of (D st bs)).
Proof.
  intros C D [A B _]. constructor; intros st bs empty read out g st' H.
  - destruct (A _ _ _ _ _ _ _ H) as (A1 & A2 & A3 & m & -> & -> & A4). repeat split; auto. intros more. rewrite A4. apply text_app.
  - destruct (B _ _ _ _ _ _ _ H) as (A1 & A3 & m & -> & -> & A4). repeat split; auto. rewrite A4, text_app. destruct empty; reflexivity.
Qed.

Lemma reaches_app : forall l a l1 b l2, reaches l a l1 -> reaches l1 b l2 -> reaches l (a ++ b) l2.
Proof.
  intros l a l1 b l2 H1 H2. rewrite (reaches_unique _ _ _ _ H1 (push_str_reaches _ _)) in H2.
  rewrite (reaches_unique _ _ _ _ H2 (push_str_reaches _ _)), <- push_str_app. apply push_str_reaches.
Qed.

Section Codec.
Variable C : codec.
Variable D : dc_state C -> list byte -> marked.
Variable I : reporting C D.

Lemma loop_push_m : forall fuel st bs, length bs < fuel ->
  exists st' m n g, convert_loop C fuel true st bs false = Ok (st', text_of m, n, g) /\ g = has_mark m /\
    (g = false -> n = length bs) /\
    forall more, exists rest, D st (bs ++ more) = m ++ rest /\ (g = false -> rest = D st' more).
Proof.
  induction fuel as [|fuel IH]; intros st bs Hf; [lia|]. cbn [convert_loop].
  destruct (dc_call C st bs false) as ((((empty & read) & out) & g) & st') eqn:Ec.
  destruct (rep_push C D I _ _ _ _ _ _ _ Ec) as (A1 & A2 & A3 & m & -> & -> & A4). rewrite andb_true_r.
  destruct (has_mark m) eqn:Eg.
  { exists st', m, read, true. split; [reflexivity|]. split; [congruence|]. split; [discriminate|].
    intros more. eexists. split; [apply A4|discriminate]. }
  destruct empty.
  - cbn [orb]. exists st', m, read, false. split; [reflexivity|]. split; [congruence|]. rewrite (A2 eq_refl) in *. split; [reflexivity|].
    intros more. eexists. split; [apply A4|]. intros _. rewrite skipn_all. reflexivity.
  - cbn [orb]. destruct (Nat.eqb_spec read 0) as [Hz|Hz]; [specialize (A3 eq_refl); lia|].
    assert (Hl : length (skipn read bs) < fuel) by (rewrite skipn_length; lia).
    destruct (IH st' (skipn read bs) Hl) as (st2 & m2 & n2 & g2 & B1 & B2 & B3 & B4).
    rewrite B1. cbn [bind]. exists st2, (m ++ m2), (read + n2), g2. rewrite text_app. split; [reflexivity|].
    split; [rewrite mark_app, Eg; exact B2|]. split; [intros G; rewrite (B3 G), skipn_length; lia|].
    intros more. destruct (B4 more) as (rest & R1 & R2). exists rest. split; [|exact R2]. rewrite A4, R1, app_assoc. reflexivity.
Qed.
Lemma loop_last_m : forall fuel st bs, length bs < fuel ->
  exists st' m n g, convert_loop C fuel true st bs true = Ok (st', text_of m, n, g) /\ g = has_mark m /\
    exists rest, D st bs = m ++ rest /\ (g = false -> rest = []).
Proof.
  induction fuel as [|fuel IH]; intros st bs Hf; [lia|]. cbn [convert_loop].
  destruct (dc_call C st bs true) as ((((empty & read) & out) & g) & st') eqn:Ec.
  destruct (rep_last C D I _ _ _ _ _ _ _ Ec) as (A1 & A3 & m & -> & -> & A4). rewrite andb_true_r.
  destruct (has_mark m) eqn:Eg.
  { exists st', m, read, true. split; [reflexivity|]. split; [congruence|]. eexists. split; [apply A4|discriminate]. }
  destruct empty.
  - cbn [orb]. exists st', m, read, false. split; [reflexivity|]. split; [congruence|]. eexists. split; [apply A4|]. reflexivity.
  - cbn [orb]. destruct (Nat.eqb_spec read 0) as [Hz|Hz]; [specialize (A3 eq_refl); lia|].
    assert (Hl : length (skipn read bs) < fuel) by (rewrite skipn_length; lia).
    destruct (IH st' (skipn read bs) Hl) as (st2 & m2 & n2 & g2 & B1 & B2 & rest & R1 & R2).
    rewrite B1. cbn [bind]. exists st2, (m ++ m2), (read + n2), g2. rewrite text_app. split; [reflexivity|].
    split; [rewrite mark_app, Eg; exact B2|]. exists rest. split; [|exact R2]. rewrite A4, R1, app_assoc. reflexivity.
Qed.

(** The place after the first replacement character of an output with a garbled one. *)
Lemma position_split : forall c s, In c s -> exists a b, s = a ++ c :: b /\ ~ In c a /\ position_of c s = length a.
Proof.
  induction s as [|x s IH]; [intros []|]. intros H. cbn [position_of]. destruct (N.eqb_spec x c) as [->|Hx].
  - exists [], s. repeat split; auto.
  - destruct H as [H|H]; [congruence|]. destruct (IH H) as (a & b & -> & Ha & Hp). exists (x :: a), b. cbn. rewrite Hp.
    repeat split; auto. intros [?|?]; auto.
Qed.
Definition garbled_at (l : location) (m : marked) (e : error) : Prop :=
  exists a b, text_of m = a ++ 65533%N :: b /\ ~ In 65533%N a /\ reaches l (a ++ [65533%N]) (e_loc e).
Lemma mark_in : forall m, has_mark m = true -> exists c, In (c, true) m.
Proof. intros m H. apply existsb_exists in H. destruct H as ((c & b) & H & K). cbn in K. subst b. eauto. Qed.
Lemma garbled_located : forall d st bytes m, (exists st0 bs rest, D st0 bs = m ++ rest) -> has_mark m = true ->
  exists e, snd (garbled_detected C d st bytes (text_of m)) = Err e /\ garbled_at (d_loc C d) m e.
Proof.
  intros d st bytes m (st0 & bs & rest & Hd) Hm. destruct (mark_in _ Hm) as (c & Hc).
  assert (c = 65533%N) by (eapply (rep_char C D I); rewrite Hd; apply in_or_app; left; exact Hc). subst c.
  assert (Hi : In 65533%N (text_of m)) by (apply (in_map fst) in Hc; exact Hc).
  unfold garbled_detected. cbn [snd].
  assert (Hx : existsb (N.eqb replacement_char) (text_of m) = true) by (apply existsb_exists; exists 65533%N; split; [exact Hi|reflexivity]).
  rewrite Hx. destruct (position_split _ _ Hi) as (a & b & E & Ha & Hp). eexists. split; [reflexivity|].
  exists a, b. split; [exact E|]. split; [exact Ha|]. cbn [e_loc]. unfold replacement_char. rewrite Hp.
  replace (firstn (length a + 1) (text_of m)) with (a ++ [65533%N]); [apply push_str_reaches|].
  rewrite E. rewrite firstn_app. rewrite firstn_all2 by lia. f_equal. replace (length a + 1 - length a) with 1 by lia. reflexivity.
Qed.

Lemma push_cases_m : forall d bs, d_buf C d = [] -> d_stop C d = true -> exists m, 
  (forall more, exists rest, D (d_state C d) (bs ++ more) = m ++ rest /\
     (has_mark m = false -> rest = D (d_state C (fst (dec_push C d bs))) more)) /\
  if has_mark m then exists e, snd (dec_push C d bs) = Err e /\ garbled_at (d_loc C d) m e
  else snd (dec_push C d bs) = Ok (text_of m) /\
    d_buf C (fst (dec_push C d bs)) = [] /\ d_stop C (fst (dec_push C d bs)) = true /\
    d_loc C (fst (dec_push C d bs)) = loc_push_str (d_loc C d) (text_of m).
Proof.
  intros d bs Hb Hs. unfold dec_push, convert. rewrite Hb, Hs. cbn [app].
  destruct (loop_push_m (length bs + 2) (d_state C d) bs ltac:(lia)) as (st' & m & n & g & A & -> & B & G).
  rewrite A. exists m. destruct (has_mark m) eqn:Em.
  - split.
    + intros more. destruct (G more) as (rest & R1 & _). exists rest. split; [exact R1|discriminate].
    + apply garbled_located; [|exact Em]. destruct (G []) as (rest & R1 & _). eauto.
  - split.
    + intros more. destruct (G more) as (rest & R1 & R2). exists rest. split; [exact R1|]. exact R2.
    + cbn. rewrite (B eq_refl), skipn_all. repeat split; auto.
Qed.
Lemma flush_cases_m : forall d, d_buf C d = [] -> d_stop C d = true -> exists m rest, D (d_state C d) [] = m ++ rest /\
  if has_mark m then exists e, snd (dec_flush C d) = Err e /\ garbled_at (d_loc C d) m e
  else snd (dec_flush C d) = Ok (text_of m) /\ rest = [].
Proof.
  intros d Hb Hs. unfold dec_flush, convert. rewrite Hb, Hs. cbn [app].
  destruct (loop_last_m (@length byte [] + 2) (d_state C d) [] ltac:(cbn; lia)) as (st' & m & n & g & A & -> & rest & R1 & R2).
  rewrite A. exists m, rest. split; [exact R1|]. destruct (has_mark m) eqn:Em.
  - apply garbled_located; [|exact Em]. eauto.
  - cbn. split; auto.
Qed.
(** [m] is the marked text of the rest of the stream, [l] where it starts. *)
Definition stops_right (l : location) (m : marked) (x : res str) : Prop :=
  if has_mark m then exists e done cur rest, x = Err e /\ m = done ++ cur ++ rest /\ has_mark done = false /\
                       exists l', reaches l (text_of done) l' /\ garbled_at l' cur e /\ has_mark cur = true
  else x = Ok (text_of m).
Lemma decode_from : forall frags d, d_buf C d = [] -> d_stop C d = true ->
  stops_right (d_loc C d) (D (d_state C d) (concat frags))
    (let '(d', x) := pushes d frags in let? s := x in let? s2 := snd (dec_flush C d') in Ok (s ++ s2)).
Proof.
  induction frags as [|f r IH]; intros d Hb Hs.
  - cbn [pushes concat bind]. destruct (flush_cases_m d Hb Hs) as (m & rest & E & K). unfold stops_right. rewrite E, mark_app.
    destruct (has_mark m) eqn:Em.
    + cbn [orb]. destruct K as (e & K1 & K2). rewrite K1. cbn. exists e, [], m, rest. repeat split; auto.
      exists (d_loc C d). repeat split; auto; try (cbn; lia). intros a (b & Hab & _). destruct b; discriminate.
    + destruct K as (K1 & ->). rewrite K1. cbn. rewrite app_nil_r. reflexivity.
  - cbn [pushes concat]. destruct (push_cases_m d f Hb Hs) as (m & Hm & K). destruct (Hm (concat r)) as (rest & E & R).
    destruct (dec_push C d f) as (d1 & x1) eqn:Ep. cbn [fst snd] in K, R. unfold stops_right. rewrite E, mark_app.
    destruct (has_mark m) eqn:Em.
    + cbn [orb]. destruct K as (e & -> & K2). cbn. exists e, [], m, rest. repeat split; auto.
      exists (d_loc C d). repeat split; auto; try (cbn; lia). intros a (b & Hab & _). destruct b; discriminate.
    + destruct K as (-> & K1 & K2 & K3). specialize (IH d1 K1 K2). rewrite (R eq_refl). cbn [orb]. unfold stops_right in IH.
      destruct (pushes d1 r) as (d2 & x2). destruct (has_mark (D (d_state C d1) (concat r))).
      * destruct IH as (e & done & cur & rest2 & H1 & H2 & H3 & l' & H4 & H5 & H6).
        assert (Hx : (let? s := (let? s2 := x2 in Ok (text_of m ++ s2)) in let? s2 := snd (dec_flush C d2) in Ok (s ++ s2)) = Err e).
        { destruct x2 as [s|e2|?|]; cbn in H1 |- *; try discriminate; [|exact H1]. destruct (snd (dec_flush C d2)); cbn in H1 |- *; try discriminate. exact H1. }
        exists e, (m ++ done), cur, rest2. split; [exact Hx|]. split; [rewrite H2, app_assoc; reflexivity|]. split; [rewrite mark_app, Em, H3; reflexivity|].
        exists l'. split; [|auto]. rewrite K3 in H4. rewrite text_app. eapply reaches_app; [apply push_str_reaches|exact H4].
      * destruct x2 as [s|e2|?|]; cbn in IH |- *; try discriminate. destruct (snd (dec_flush C d2)) as [s2|?|?|]; cbn in IH |- *; try discriminate.
        injection IH as IH. rewrite <- app_assoc, IH, text_app. reflexivity.
Qed.

(** Where the first marked character is. *)
Lemma first_mark : forall a b a2 b2 c c2, a ++ (c, true) :: b = a2 ++ (c2, true) :: b2 -> has_mark a = false -> has_mark a2 = false -> a = a2.
Proof.
  induction a as [|x a IH]; intros b a2 b2 c c2 E Ha Ha2.
  - destruct a2 as [|y a2]; [reflexivity|]. injection E as E _. subst y. discriminate.
  - destruct a2 as [|y a2]; [injection E as E _; subst x; discriminate|]. injection E as <- E. cbn in Ha, Ha2.
    apply orb_false_iff in Ha, Ha2. f_equal. eapply IH; [exact E|apply Ha|apply Ha2].
Qed.
Lemma mark_split : forall m, has_mark m = true -> exists a c b, m = a ++ (c, true) :: b /\ has_mark a = false.
Proof.
  induction m as [|(c & k) m IH]; [discriminate|]. intros H. destruct k.
  - exists [], c, m. auto.
  - destruct (IH H) as (a & c2 & b & -> & Ha). exists ((c, false) :: a), c2, b. auto.
Qed.
Lemma in_split_first : forall (c : char) a b x y, a ++ c :: b = x ++ c :: y -> ~ In c a -> length a <= length x.
Proof.
  intros c. induction a as [|z a IH]; intros b x y E Ha; [cbn; lia|]. destruct x as [|w x].
  - injection E as -> _. exfalso. apply Ha. left. reflexivity.
  - injection E as <- E. cbn. apply le_n_S. eapply IH; [exact E|]. intros K. apply Ha. right. exact K.
Qed.
Lemma stopping : forall name enc frags, 
  let m := D (dc_init C) (concat frags) in
  (has_mark m = false -> decode_all (dec_new C name enc true) frags = Ok (text_of m)) /\
  (forall a c b, m = a ++ (c, true) :: b -> has_mark a = false ->
   exists e x y, decode_all (dec_new C name enc true) frags = Err e /\ text_of m = x ++ 65533%N :: y /\
     length x <= length a /\ reaches (loc_new name) (x ++ [65533%N]) (e_loc e)).
Proof.
  intros name enc frags m. pose proof (decode_from frags (dec_new C name enc true) eq_refl eq_refl) as K.
  change (stops_right (loc_new name) m (decode_all (dec_new C name enc true) frags)) in K. unfold stops_right in K. split.
  - intros Hm. rewrite Hm in K. exact K.
  - intros a c b Em Ha. assert (Hm : has_mark m = true) by (rewrite Em, mark_app; cbn; rewrite orb_true_r; reflexivity). rewrite Hm in K.
    destruct K as (e & done & cur & rest & K1 & K2 & K3 & l' & K4 & (x & y & X1 & X2 & X3) & K5).
    destruct (mark_split _ K5) as (a2 & c2 & b2 & E2 & Ha2). 
    assert (Hd : a = done ++ a2).
    { eapply (first_mark a b (done ++ a2) (b2 ++ rest) c c2); [|exact Ha|rewrite mark_app, K3, Ha2; reflexivity].
      rewrite <- Em, K2, E2, <- !app_assoc. reflexivity. }
    assert (c2 = 65533%N). { eapply (rep_char C D I (dc_init C) (concat frags)). change (In (c2, true) m). rewrite K2, E2. apply in_or_app. right. apply in_or_app. left. apply in_or_app. right. left. reflexivity. }
    exists e, (text_of done ++ x), (y ++ text_of rest). split; [exact K1|]. split.
    { rewrite K2, !text_app, X1, <- !app_assoc. reflexivity. }
    split.
    { rewrite Hd, !app_length. unfold text_of at 1. rewrite map_length. apply Nat.add_le_mono_l.
      rewrite E2, text_app in X1. cbn in X1. subst c2. symmetry in X1.
      pose proof (in_split_first _ _ _ _ _ X1 X2) as Hl. unfold text_of in Hl. rewrite map_length in Hl. exact Hl. }
    rewrite <- app_assoc. eapply reaches_app; eassumption.
Qed.
End Codec.

(** Byte transducers report. *)
Section Transducer.
Variable T : transducer.
Variable cap : nat.
Variable Hcap : 0 < cap.
Hypothesis step_char : forall st b c, In (c, true) (snd (td_step T st b)) -> c = 65533%N.
Hypothesis end_char : forall st c, In (c, true) (td_end T st) -> c = 65533%N.
Lemma td_go_cons : forall k st b r last, td_go T k st (b :: r) last =
  match k with
  | O => (false, 0, [], st)
  | S k' => let '(st', o) := td_step T st b in
      let '(e, n, o2, st2) := td_go T k' st' r last in (e, S n, o ++ o2, st2)
  end.
Proof. destruct k; reflexivity. Qed.
Lemma td_push : forall bs k st e n o st', td_go T k st bs false = (e, n, o, st') ->
  n <= length bs /\ (e = true -> n = length bs) /\ (e = false -> 0 < k -> 0 < n) /\
  forall more, td_text T st (bs ++ more) = o ++ td_text T st' (skipn n bs ++ more).
Proof.
  induction bs as [|b bs IH]; intros k st e n o st' H.
  - assert (E : (true, 0, [], st) = (e, n, o, st')) by (destruct k; exact H).
    injection E as <- <- <- <-. cbn. repeat split; try lia; discriminate.
  - rewrite td_go_cons in H. destruct k as [|k]; [injection H as <- <- <- <-; cbn; repeat split; try lia; discriminate|].
    destruct (td_step T st b) as (st1 & o1) eqn:Es. destruct (td_go T k st1 bs false) as (((e2 & n2) & o2) & st2) eqn:Eg.
    injection H as <- <- <- <-. destruct (IH _ _ _ _ _ _ Eg) as (A & B & _ & E). cbn [length]. repeat split; try lia.
    + intros He. rewrite (B He). reflexivity.
    + intros more. cbn [app td_text skipn]. rewrite Es, E, app_assoc. reflexivity.
Qed.
Lemma td_last : forall bs k st e n o st', td_go T k st bs true = (e, n, o, st') ->
  n <= length bs /\ (e = false -> 0 < k -> 0 < n) /\
  td_text T st bs = o ++ (if e then [] else td_text T st' (skipn n bs)).
Proof.
  induction bs as [|b bs IH]; intros k st e n o st' H.
  - destruct k as [|k]; cbn in H.
    + destruct (td_end T st) eqn:Ee; injection H as <- <- <- <-; cbn; rewrite Ee; repeat split; try lia.
    + injection H as <- <- <- <-. cbn. rewrite app_nil_r. repeat split; try lia; discriminate.
  - rewrite td_go_cons in H. destruct k as [|k]; [injection H as <- <- <- <-; cbn; repeat split; lia|].
    destruct (td_step T st b) as (st1 & o1) eqn:Es. destruct (td_go T k st1 bs true) as (((e2 & n2) & o2) & st2) eqn:Eg.
    injection H as <- <- <- <-. destruct (IH _ _ _ _ _ _ Eg) as (A & _ & E). cbn [length]. repeat split; try lia.
    cbn [td_text skipn]. rewrite Es, E, app_assoc. reflexivity.
Qed.
Lemma td_chars : forall bs st c, In (c, true) (td_text T st bs) -> c = 65533%N.
Proof.
  induction bs as [|b bs IH]; intros st c H; [exact (end_char _ _ H)|]. cbn [td_text] in H. destruct (td_step T st b) as (st1 & o1) eqn:Es.
  apply in_app_or in H. destruct H as [H|H]; [|exact (IH _ _ H)]. apply (step_char st b). rewrite Es. exact H.
Qed.
Lemma codec_reporting : reporting (codec_of T cap) (td_text T).
Proof.
  constructor.
  - cbn. intros st bs e n o g st' H. destruct (td_go T cap st bs false) as (((e2 & n2) & o2) & st2) eqn:Eg. injection H as <- <- <- <- <-.
    destruct (td_push _ _ _ _ _ _ _ Eg) as (A & B & K & E). repeat split; auto. exists o2. auto.
  - cbn. intros st bs e n o g st' H. destruct (td_go T cap st bs true) as (((e2 & n2) & o2) & st2) eqn:Eg. injection H as <- <- <- <- <-.
    destruct (td_last _ _ _ _ _ _ _ Eg) as (A & K & E). repeat split; auto. exists o2. auto.
  - exact (fun st bs => td_chars bs st).
Qed.
End Transducer.

(** UTF-8. *)
Lemma u_first_char : forall s b c, In (c, true) (snd (u_first s b)) -> c = 65533%N.
Proof.
  intros s b c. unfold u_first, u_emit, garbled_mark.
  repeat match goal with |- context [if ?x then _ else _] => destruct x end; cbn; intros H; repeat (destruct H as [H|H]; [try discriminate; injection H; auto|]); try destruct H.
Qed.
Lemma u_step_char : forall st b c, In (c, true) (snd (u_step st b)) -> c = 65533%N.
Proof.
  intros st b c. unfold u_step. destruct (u_needed st) as [|n]; [apply u_first_char|].
  destruct (_ && _)%bool.
  - destruct n; cbn; [|intros []]. destruct (_ && _)%bool; cbn; [intros []|]. intros [H|[]]. discriminate.
  - pose proof (u_first_char false b c) as K. destruct (u_first false b) as (st' & o). cbn in *. intros [H|H]; [injection H as <-; reflexivity|auto].
Qed.
Lemma utf8_reporting : forall cap, 0 < cap -> reporting (codec_of utf8 cap) (td_text utf8).
Proof.
  intros cap H. apply codec_reporting; [exact H|exact u_step_char|]. intros st c. cbn. destruct (u_needed st); cbn; [intros []|]. intros [K|[]]. injection K as <-. reflexivity.
Qed.
Lemma u_next : forall start n cp lo hi b, (lo <= b <= hi)%N ->
  u_step (U8 start (S n) cp lo hi) b =
  match n with O => u_emit start (cp * 64 + (b - 128))%N | _ => (U8 start n (cp * 64 + (b - 128)) 128 191, []) end.
Proof.
  intros start n cp lo hi b H. unfold u_step. cbn [u_needed u_low u_high u_cp u_start].
  destruct (N.leb_spec lo b); [|lia]. destruct (N.leb_spec b hi); [|lia]. reflexivity.
Qed.
Ltac leb := repeat match goal with
  | |- context [N.leb ?a ?b] => destruct (N.leb_spec a b); try (exfalso; lia)
  | |- context [N.eqb ?a ?b] => destruct (N.eqb_spec a b); try (exfalso; lia)
  end.
Lemma first2 : forall start k, (2 <= k < 32)%N -> u_step (U8 start 0 0 128 191) (192 + k)%N = (U8 start 1 k 128 191, []).
Proof. intros start k H. unfold u_step, u_first. cbn [u_needed u_start]. replace (192 + k - 192)%N with k by lia. leb. reflexivity. Qed.
Lemma first3 : forall start k, (k < 16)%N -> u_step (U8 start 0 0 128 191) (224 + k)%N =
  (U8 start 2 k (if N.eqb k 0 then 160 else 128) (if N.eqb k 13 then 159 else 191), []).
Proof.
  intros start k H. unfold u_step, u_first. cbn [u_needed u_start].
  replace (224 + k - 224)%N with k by lia. leb; reflexivity.
Qed.
Lemma first4 : forall start k, (k < 5)%N -> u_step (U8 start 0 0 128 191) (240 + k)%N =
  (U8 start 3 k (if N.eqb k 0 then 144 else 128) (if N.eqb k 4 then 143 else 191), []).
Proof.
  intros start k H. unfold u_step, u_first. cbn [u_needed u_start].
  replace (240 + k - 240)%N with k by lia. leb; reflexivity.
Qed.
Ltac arith := zify; Z.to_euclidean_division_equations; lia.
Lemma utf8_text_char : forall c start rest, scalar c ->
  td_text utf8 (U8 start 0 0 128 191) (utf8_char c ++ rest) =
  (if start && N.eqb c 65279 then [] else [(c, false)]) ++ td_text utf8 (U8 false 0 0 128 191) rest.
Proof.
  intros c start rest Hc. unfold scalar in Hc.
  unfold utf8_char. destruct (N.ltb_spec c 128) as [H1|H1]; [|destruct (N.ltb_spec c 2048) as [H2|H2]; [|destruct (N.ltb_spec c 65536) as [H3|H3]]].
  - cbn [app td_text td_step utf8]. unfold u_step, u_first. cbn [u_needed u_start]. destruct (N.leb_spec c 127); [|lia]. reflexivity.
  - cbn [app td_text td_step utf8]. rewrite first2 by arith. rewrite u_next by arith. cbn [app].
    replace (c / 64 * 64 + (128 + c mod 64 - 128))%N with c by arith. reflexivity.
  - cbn [app td_text td_step utf8]. rewrite first3 by arith.
    rewrite u_next by (destruct (N.eqb_spec (c / 4096) 0); destruct (N.eqb_spec (c / 4096) 13); arith). cbn [app].
    rewrite u_next by arith. cbn [app].
    replace ((c / 4096 * 64 + (128 + c / 64 mod 64 - 128)) * 64 + (128 + c mod 64 - 128))%N with c by arith. reflexivity.
  - cbn [app td_text td_step utf8]. rewrite first4 by arith.
    rewrite u_next by (destruct (N.eqb_spec (c / 262144) 0); destruct (N.eqb_spec (c / 262144) 4); arith). cbn [app].
    rewrite u_next by arith. cbn [app]. rewrite u_next by arith. cbn [app].
    replace (((c / 262144 * 64 + (128 + c / 4096 mod 64 - 128)) * 64 + (128 + c / 64 mod 64 - 128)) * 64 + (128 + c mod 64 - 128))%N with c by arith. reflexivity.
Qed.
Lemma utf8_text : forall s, Forall scalar s -> td_text utf8 (U8 false 0 0 128 191) (as_bytes s) = plain s.
Proof.
  induction s as [|c s IH]; [reflexivity|]. intros H. inversion H; subst. unfold as_bytes in *. cbn [flat_map]. rewrite utf8_text_char by assumption.
  cbn [andb app]. rewrite IH by assumption. reflexivity.
Qed.
Lemma utf8_decodes : forall cap, 0 < cap -> decodes_utf8 (codec_of utf8 cap).
Proof.
  intros cap H. exists (td_text utf8). split; [exact (utf8_reporting cap H)|]. intros [|c s] Hs; [reflexivity|].
  inversion Hs; subst. unfold as_bytes. cbn [flat_map codec_of dc_init td_init utf8 no_bom]. rewrite utf8_text_char by assumption.
  fold (as_bytes s). rewrite utf8_text by assumption. cbn [andb]. destruct (N.eqb c 65279); reflexivity.
Qed.

(** Reading a syntax. *)
Lemma cursor_reads_concat : forall fuel n bs, 0 < n -> length bs <= fuel -> concat (cursor_reads fuel n bs) = bs.
Proof.
  induction fuel as [|fuel IH]; intros n bs Hn Hf; cbn [cursor_reads].
  - destruct bs; [reflexivity|cbn in Hf; lia].
  - destruct bs as [|b r]; [reflexivity|]. cbn [concat]. rewrite IH; [apply firstn_skipn|exact Hn|].
    rewrite skipn_length. cbn [length] in *. lia.
Qed.
Lemma cursor_all : forall bs, concat (bs_chunks (cursor_bytes bs)) = bs.
Proof.
  intros bs. apply cursor_reads_concat; [|apply le_n].
  assert (K : forall n, (0 < n)%N -> 0 < N.to_nat n) by (intros; lia). apply K. reflexivity.
Qed.
Lemma cursor_error : forall bs, bs_err (cursor_bytes bs) = None.
Proof. reflexivity. Qed.
Lemma plain_text : forall s, text_of (plain s) = s.
Proof. intros s. unfold text_of, plain. rewrite map_map. apply map_id. Qed.
Lemma read_str_ok : forall C, decodes_utf8 C -> forall name s, Forall scalar s -> forall sy,
  read_from_str C name s 0 = Ok sy <-> exists rs, parse_str name (no_bom s) = Ok rs /\ new_syntax rs = Ok sy.
Proof.
  intros C (D & R & HD) name s Hs sy. unfold read_from_str, read_from_utf8, read_from.
  pose proof (lex_parse_ok_iff C _ (reporting_incremental C D R) name (of_string "utf-8") (bs_chunks (cursor_bytes (as_bytes s)))) as K.
  rewrite cursor_all, HD, plain_text in K by assumption.
  change (BS (bs_chunks (cursor_bytes (as_bytes s))) None) with (cursor_bytes (as_bytes s)) in K.
  split.
  - intros H. destruct (lex_parse _ _ _ _ _) as [rs| | |]; cbn in H; try discriminate. exists rs. split; [apply K; reflexivity|exact H].
  - intros (rs & H1 & H2). apply K in H1. rewrite H1. exact H2.
Qed.
Lemma read_str_fragments : forall C, decodes_utf8 C -> forall name s max, Forall scalar s -> exists texts,
  concat texts = no_bom s /\
  read_from_str C name s max = (let? rs := lex_fragments name max (map FStr texts) in new_syntax rs).
Proof.
  intros C (D & R & HD) name s max Hs. unfold read_from_str, read_from_utf8, read_from.
  destruct (lex_parse_fragments C _ (reporting_incremental C D R) name (of_string "utf-8") max (bs_chunks (cursor_bytes (as_bytes s)))) as (texts & E & K).
  rewrite cursor_all, HD, plain_text in K by assumption. exists texts. split; [exact K|].
  change (BS (bs_chunks (cursor_bytes (as_bytes s))) None) with (cursor_bytes (as_bytes s)) in E. rewrite E. reflexivity.
Qed.
Lemma stopping_exact : forall C D, reporting C D -> forall name enc frags a c b,
  D (dc_init C) (concat frags) = a ++ (c, true) :: b -> has_mark a = false -> ~ In 65533%N (text_of a) ->
  exists e, decode_all (dec_new C name enc true) frags = Err e /\ reaches (loc_new name) (text_of a ++ [65533%N]) (e_loc e).
Proof.
  intros C D R name enc frags a c b E Ha Hn. destruct (proj2 (stopping C D R name enc frags) a c b E Ha) as (e & x & y & H1 & H2 & H3 & H4).
  exists e. split; [exact H1|]. cut (text_of a = x); [intros ->; exact H4|]. rewrite E, text_app in H2.
  pose proof (rep_char C D R (dc_init C) (concat frags) c) as Hc. rewrite E in Hc. specialize (Hc ltac:(apply in_or_app; right; left; reflexivity)). subst c.
  cbn in H2. pose proof (in_split_first _ _ _ _ _ H2 Hn) as H5. unfold text_of in H5 at 1. rewrite map_length in H5.
  assert (H6 : length (text_of a) = length x) by (unfold text_of; rewrite map_length; lia).
  clear - H2 H6. revert x H2 H6. generalize (text_of a) as t. induction t as [|z t IH]; intros [|w x] E L; try discriminate; [reflexivity|].
  injection E as <- E. f_equal. apply IH; [exact E|]. cbn in L. lia.
Qed.
