(** Readers over bytes, and files. *)
From Coq Require Import String List NArith Arith Bool Lia.
From Verif Require Import Base Ident Tokenizer Ast Lex Syntax Io Graph Machine Decode Read Open SpecText SpecTok SpecLex SpecIo SpecDecode SpecUtf8 SpecOpen
  TextFacts TokRun LexRun IoFacts DecodeFacts GarbleFacts SyntaxFacts SpecParse SpecMachine Pure PureFacts MachineFacts.
Import ListNotations.
Open Scope nat_scope.

Lemma dr_chunks_outputs : forall C d frags, dr_chunks C d frags = outputs C d frags.
Proof. intros C d frags. revert d. induction frags as [|f r IH]; intros d; [reflexivity|]. cbn. destruct (dec_push C d f) as (d' & [s| | |]); [rewrite IH|..]; reflexivity. Qed.
Lemma dr_source_stands : forall C r, dr_source C r = stands_for C r.
Proof. intros C r. unfold dr_source, stands_for. rewrite dr_chunks_outputs. reflexivity. Qed.

Section Live.
Variable C : codec.
Variable D : dc_state C -> list byte -> str.
Variable I : incremental C D.
Lemma live_alike : forall debug cs r lv, mr_ub r = lv_ub C lv -> same_source (mr_src r) (stands_for C (lv_src C lv)) -> dr_good C (lv_src C lv) ->
  live_replies debug cs lv = replies debug cs r.
Proof.
  intros debug. induction cs as [|c cs IH]; intros r lv Hu Hs Hg; [reflexivity|]. destruct r as [src u], lv as [dr u']. cbn [mr_ub mr_src lv_ub lv_src] in *. subst u'.
  destruct c; cbn [live_replies replies on_buffer lv_ub].
  - unfold lv_read_chars, m_read_chars. cbn [lv_ub mr_ub lv_src mr_src]. destruct (ub_remains u) eqn:Er.
    + destruct (ub_read n u) as (out & u2). f_equal. apply IH; auto.
    + destruct (reader_source C D I n dr Hg) as (x & r' & s' & A & B & Sm & G'). rewrite A, (same_source_read _ _ _ Hs), B.
      destruct x as [[|a out]|e|p|]; try (f_equal; apply IH; auto).
      destruct (ub_append debug (a :: out) u) as [u2|e|p|]; f_equal; apply IH; auto.
  - unfold m_mark, with_ub. cbn [mr_ub mr_src]. destruct (ub_mark debug u) as [(a & u2)|e|p|]; cbn; f_equal; apply IH; auto.
  - unfold m_reset, with_ub. cbn [mr_ub mr_src]. destruct (ub_revert m u) as [(a & u2)|e|p|]; cbn; f_equal; apply IH; auto.
  - unfold m_unmark, with_ub. cbn [mr_ub mr_src]. destruct (ub_remove_mark m u) as [(a & u2)|e|p|]; cbn; f_equal; apply IH; auto.
  - unfold m_location. cbn. f_equal. apply IH; auto.
Qed.
Lemma live_new : forall debug cs name enc b,
  live_replies debug cs (Live C (dr_new C name enc b) (UB (loc_new name) [] 0 0 [])) =
  replies debug cs (mr_new (loc_new name) (dr_source C (dr_new C name enc b))).
Proof. intros. apply live_alike; [reflexivity|rewrite dr_source_stands; split; reflexivity|split; reflexivity]. Qed.
(** The text of a reader over bytes. *)
Lemma bytes_text : forall name enc b, exists q,
  forall more, D (dc_init C) (concat (bs_chunks b) ++ more) = unread (mr_new (loc_new name) (dr_source C (dr_new C name enc b))) ++ D q more.
Proof.
  intros name enc b. rewrite dr_source_stands. destruct (decoder_progress C D I name enc (bs_chunks b)) as (q & H). exists q. exact H.
Qed.
End Live.

Lemma prompt_loop : forall C D, reporting C D -> prompt C D -> forall fuel st bs st' out n,
  convert_loop C fuel false st bs false = Ok (st', out, n, false) -> Forall (fun x => snd x = true) (D st' []).
Proof.
  intros C D R P. induction fuel as [|fuel IH]; intros st bs st' out n H; [discriminate|]. cbn [convert_loop] in H.
  destruct (dc_call C st bs false) as ((((empty & read) & o) & g) & st1) eqn:Ec. rewrite andb_false_r in H.
  destruct (rep_push C D R _ _ _ _ _ _ _ Ec) as (_ & _ & A3 & _). destruct empty; cbn [orb] in H.
  - injection H as <- <- <-. exact (P _ _ _ _ _ _ Ec).
  - destruct (Nat.eqb_spec read 0) as [Hz|Hz]; [specialize (A3 eq_refl); lia|].
    destruct (convert_loop C fuel false st1 (skipn read bs) false) as [(((st2 & out2) & n2) & g2)| | |] eqn:E; cbn in H; try discriminate.
    injection H as <- <- <- ->. exact (IH _ _ _ _ _ E).
Qed.
Lemma prompt_pushes : forall C D, reporting C D -> prompt C D -> forall frags d, d_buf C d = [] -> d_stop C d = false ->
  Forall (fun x => snd x = true) (D (d_state C d) []) ->
  exists d', pushes d frags = (d', Ok (concat (outputs C d frags))) /\ Forall (fun x => snd x = true) (D (d_state C d') []).
Proof.
  intros C D R P. induction frags as [|f r IH]; intros d Hb Hs Hd; [cbn; eauto|]. cbn [pushes outputs].
  destruct (push_cases C _ (reporting_incremental C D R) d f Hb) as (d1 & [(out & P1 & P2 & P3 & P4 & P5)|(e & P1 & Z)]); [|congruence]. rewrite P1.
  assert (Hd1 : Forall (fun x => snd x = true) (D (d_state C d1) [])).
  { unfold dec_push, convert in P1. rewrite Hb, Hs in P1. cbn [app] in P1.
    destruct (convert_loop C (length f + 2) false (d_state C d) f false) as [(((st & o) & n) & g)| | |] eqn:E; try discriminate. destruct g; [discriminate|].
    injection P1 as <- <-. exact (prompt_loop C D R P _ _ _ _ _ _ E). }
  destruct (IH d1 P2 ltac:(congruence) Hd1) as (d2 & -> & K). cbn. eauto.
Qed.
Lemma plain_split : forall s a b, plain s = a ++ b -> Forall (fun x => snd x = true) b -> b = [].
Proof.
  intros s a b H F. destruct b as [|(c, m) b]; [reflexivity|]. apply Forall_inv in F. cbn in F. subst m.
  assert (K : In (c, true) (plain s)) by (rewrite H; apply in_or_app; right; left; reflexivity). apply in_map_iff in K as (y & K & _). discriminate K.
Qed.
(** A reader over the bytes of a text has the text before it. *)
Lemma utf8_unread : forall C, streams_utf8 C -> forall name enc s frags, Forall scalar s -> concat frags = as_bytes s ->
  unread (mr_new (loc_new name) (dr_source C (dr_new C name enc (BS frags None)))) = no_bom s.
Proof.
  intros C (D & R & P & HD) name enc s frags Hs Hf. rewrite dr_source_stands.
  pose proof (HD [] (Forall_nil _)) as H0. cbn in H0.
  destruct (prompt_pushes C D R P frags (dec_new C name enc false) eq_refl eq_refl) as (d' & Ep & K); [cbn [dec_new d_state]; rewrite H0; constructor|].
  destruct (pushes_ok C _ (reporting_incremental C D R) _ (dec_new C name enc false) _ _ eq_refl Ep) as (_ & _ & _ & Q). specialize (Q []). rewrite app_nil_r, Hf in Q.
  cbn [d_state dec_new] in Q. rewrite HD in Q by assumption. rewrite plain_text in Q.
  assert (Z : D (d_state C d') [] = []).
  { assert (J : forall frags d d' s, d_buf C d = [] -> d_stop C d = false -> pushes d frags = (d', Ok s) -> exists m, forall more, D (d_state C d) (concat frags ++ more) = m ++ D (d_state C d') more).
    { clear - R. induction frags as [|f r IH]; intros d d' s Hb Hs H.
      - cbn in H. injection H as <- <-. exists []. reflexivity.
      - cbn [pushes] in H. destruct (push_cases C _ (reporting_incremental C D R) d f Hb) as (d1 & [(out & P1 & P2 & P3 & _)|(e & P1 & _)]); rewrite P1 in H; [|discriminate].
        destruct (pushes d1 r) as (d2 & x) eqn:Er. injection H as <- Hx. destruct x as [s2|?|?|]; try discriminate.
        destruct (IH _ _ _ P2 ltac:(congruence) Er) as (m2 & Hm2).
        assert (L : exists m, forall more, D (d_state C d) (f ++ more) = m ++ D (d_state C d1) more).
        { unfold dec_push, convert in P1. rewrite Hb, Hs in P1. cbn [app] in P1.
          destruct (convert_loop C (length f + 2) false (d_state C d) f false) as [(((st & o) & n) & g)| | |] eqn:E; try discriminate. destruct g; [discriminate|].
          injection P1 as <- <-. cbn [d_state]. clear - R E. revert E. generalize (d_state C d) (length f + 2). intros st0 k. revert st0 f st o n. induction k as [|k IHk]; intros st0 f st o n E; [discriminate|]. cbn [convert_loop] in E.
          destruct (dc_call C st0 f false) as ((((empty & read) & o1) & g) & st1) eqn:Ec. rewrite andb_false_r in E.
          destruct (rep_push C D R _ _ _ _ _ _ _ Ec) as (_ & A2 & A3 & m & _ & _ & A4). destruct empty; cbn [orb] in E.
          - injection E as <- <- <-. exists m. intros more. rewrite A4, (A2 eq_refl), skipn_all. reflexivity.
          - destruct (Nat.eqb_spec read 0) as [Hz|Hz]; [specialize (A3 eq_refl); lia|].
            destruct (convert_loop C k false st1 (skipn read f) false) as [(((st2 & out2) & n2) & g2)| | |] eqn:E2; cbn in E; try discriminate.
            injection E as <- <- <- ->. destruct (IHk _ _ _ _ _ E2) as (m2 & Hm2). exists (m ++ m2). intros more. rewrite A4, Hm2, app_assoc. reflexivity. }
        destruct L as (m1 & Hm1). exists (m1 ++ m2). intros more. cbn [concat]. rewrite <- !app_assoc, Hm1, Hm2. reflexivity. }
    destruct (J frags _ d' _ (eq_refl : d_buf C (dec_new C name enc false) = []) eq_refl Ep) as (m & Hm). specialize (Hm []). rewrite app_nil_r, Hf in Hm. cbn [d_state dec_new] in Hm. rewrite HD in Hm by assumption.
    exact (plain_split _ _ _ Hm K). }
  rewrite Z in Q. cbn in Q. rewrite app_nil_r in Q. rewrite Q. reflexivity.
Qed.
Lemma cursor_stream_all : forall bs, concat (bs_chunks (cursor_stream bs)) = bs.
Proof. intros bs. apply cursor_reads_concat; [|apply le_n]. assert (K : forall n, (0 < n)%N -> 0 < N.to_nat n) by (intros; lia). apply K. reflexivity. Qed.
Lemma utf8_streams : forall cap, 0 < cap -> streams_utf8 (codec_of utf8 cap).
Proof.
  intros cap H. exists (td_text utf8). split; [exact (utf8_reporting cap H)|]. split.
  - intros st bs read out g st' _. cbn. destruct (u_needed st'); repeat constructor.
  - intros [|c s] Hs; [reflexivity|]. inversion Hs; subst. unfold as_bytes. cbn [flat_map codec_of dc_init td_init utf8 no_bom]. rewrite utf8_text_char by assumption.
    fold (as_bytes s). rewrite utf8_text by assumption. cbn [andb]. destruct (N.eqb c 65279); reflexivity.
Qed.
