(** The decoder, the decoding reader and [lex::parse] over an incremental converter. *)
From Coq Require Import String List NArith Arith Bool Lia.
From Verif Require Import Base Tokenizer Ast Lex Io Decode SpecText SpecTok SpecLex SpecIo SpecDecode TextFacts TokRun LexRun IoFacts.
Import ListNotations.
Open Scope nat_scope.

(** The instance meets the assumption. *)
Lemma wide_push : forall bs cap st empty read out g st', wide_go cap st bs false = (empty, read, out, g, st') ->
  read <= length bs /\ (empty = true -> read = length bs) /\ (empty = false -> 0 < cap -> 0 < read) /\
  forall more, wide_text st (bs ++ more) = out ++ wide_text st' (skipn read bs ++ more).
Proof.
  induction bs as [|b bs IH]; intros cap st empty read out g st' H.
  - cbn in H. injection H as <- <- <- <- <-. cbn. repeat split; try lia.
  - cbn [wide_go] in H. destruct st as [a|].
    + destruct cap as [|cap].
      * injection H as <- <- <- <- <-. cbn. repeat split; try lia.
      * destruct (wide_go cap None bs false) as ((((e & n) & o) & g1) & s1) eqn:Eg. injection H as <- <- <- <- <-.
        destruct (IH _ _ _ _ _ _ _ Eg) as (A & B & _ & D). cbn. repeat split; try lia.
        -- intros He. rewrite (B He). reflexivity.
        -- intros more. rewrite D. reflexivity.
    + destruct (wide_go cap (Some b) bs false) as ((((e & n) & o) & g1) & s1) eqn:Eg. injection H as <- <- <- <- <-.
      destruct (IH _ _ _ _ _ _ _ Eg) as (A & B & _ & D). cbn. repeat split; try lia.
      * intros He. rewrite (B He). reflexivity.
      * intros more. rewrite D. reflexivity.
Qed.
Lemma wide_last : forall bs cap st empty read out g st', wide_go cap st bs true = (empty, read, out, g, st') ->
  read <= length bs /\ (empty = false -> 0 < cap -> 0 < read) /\
  wide_text st bs = out ++ (if empty then [] else wide_text st' (skipn read bs)).
Proof.
  induction bs as [|b bs IH]; intros cap st empty read out g st' H.
  - cbn in H. destruct st as [a|]; [destruct cap|]; injection H as <- <- <- <- <-; cbn; repeat split; try lia; discriminate.
  - cbn [wide_go] in H. destruct st as [a|].
    + destruct cap as [|cap].
      * injection H as <- <- <- <- <-. cbn. repeat split; lia.
      * destruct (wide_go cap None bs true) as ((((e & n) & o) & g1) & s1) eqn:Eg. injection H as <- <- <- <- <-.
        destruct (IH _ _ _ _ _ _ _ Eg) as (A & _ & D). cbn. repeat split; try lia. rewrite D. reflexivity.
    + destruct (wide_go cap (Some b) bs true) as ((((e & n) & o) & g1) & s1) eqn:Eg. injection H as <- <- <- <- <-.
      destruct (IH _ _ _ _ _ _ _ Eg) as (A & _ & D). cbn. repeat split; try lia. rewrite D. reflexivity.
Qed.
Lemma wide_incremental : incremental wide wide_text.
Proof.
  constructor; cbn; intros st bs empty read out g st' H.
  - destruct (wide_push _ _ _ _ _ _ _ _ H) as (A & B & C & D). repeat split; auto.
  - destruct (wide_last _ _ _ _ _ _ _ _ H) as (A & B & C). repeat split; auto.
Qed.

Section Codec.
Variable C : codec.
Variable D : dc_state C -> list byte -> str.
Variable I : incremental C D.

(** The loop of [convert]. *)
Lemma loop_push : forall fuel stop st bs, length bs < fuel ->
  exists st' out n g, convert_loop C fuel stop st bs false = Ok (st', out, n, g) /\
    (g = false -> n = length bs /\ forall more, D st (bs ++ more) = out ++ D st' more) /\
    (stop = false -> g = false).
Proof.
  induction fuel as [|fuel IH]; intros stop st bs Hf; [lia|]. cbn [convert_loop].
  destruct (dc_call C st bs false) as ((((empty & read) & out) & g) & st') eqn:Ec.
  destruct (inc_push C D I _ _ _ _ _ _ _ Ec) as (A1 & A2 & A3 & A4).
  destruct (g && stop)%bool eqn:Eg.
  { exists st', out, read, true. split; [reflexivity|]. split; [discriminate|]. intros ->. rewrite andb_false_r in Eg. discriminate. }
  destruct empty.
  - cbn [orb]. exists st', out, read, false. split; [reflexivity|]. split; [|reflexivity]. intros _. rewrite (A2 eq_refl) in *.
    split; [reflexivity|]. intros more. rewrite A4, skipn_all. reflexivity.
  - cbn [orb]. destruct (Nat.eqb_spec read 0) as [Hz|Hz]; [specialize (A3 eq_refl); lia|].
    assert (Hl : length (skipn read bs) < fuel) by (rewrite skipn_length; lia).
    destruct (IH stop st' (skipn read bs) Hl) as (st2 & out2 & n2 & g2 & B1 & B2 & B3).
    rewrite B1. cbn. exists st2, (out ++ out2), (read + n2), g2. split; [reflexivity|]. split; [|exact B3].
    intros G. destruct (B2 G) as (B4 & B5). split; [rewrite B4, skipn_length; lia|]. intros more. rewrite A4, B5, app_assoc. reflexivity.
Qed.
Lemma loop_last : forall fuel stop st bs, length bs < fuel ->
  exists st' out n g, convert_loop C fuel stop st bs true = Ok (st', out, n, g) /\
    (g = false -> D st bs = out) /\ (stop = false -> g = false).
Proof.
  induction fuel as [|fuel IH]; intros stop st bs Hf; [lia|]. cbn [convert_loop].
  destruct (dc_call C st bs true) as ((((empty & read) & out) & g) & st') eqn:Ec.
  destruct (inc_last C D I _ _ _ _ _ _ _ Ec) as (A1 & A3 & A4).
  destruct (g && stop)%bool eqn:Eg.
  { exists st', out, read, true. split; [reflexivity|]. split; [discriminate|]. intros ->. rewrite andb_false_r in Eg. discriminate. }
  destruct empty.
  - cbn [orb]. exists st', out, read, false. split; [reflexivity|]. split; [|reflexivity]. intros _. rewrite A4, app_nil_r. reflexivity.
  - cbn [orb]. destruct (Nat.eqb_spec read 0) as [Hz|Hz]; [specialize (A3 eq_refl); lia|].
    assert (Hl : length (skipn read bs) < fuel) by (rewrite skipn_length; lia).
    destruct (IH stop st' (skipn read bs) Hl) as (st2 & out2 & n2 & g2 & B1 & B2 & B3).
    rewrite B1. cbn. exists st2, (out ++ out2), (read + n2), g2. split; [reflexivity|]. split; [|exact B3].
    intros G. rewrite A4, (B2 G). reflexivity.
Qed.

(** [push] and [flush]: between calls nothing stays in the byte buffer. *)
Lemma push_cases : forall d bs, d_buf C d = [] ->
  exists d', (exists out, dec_push C d bs = (d', Ok out) /\ d_buf C d' = [] /\ d_stop C d' = d_stop C d /\
     d_loc C d' = loc_push_str (d_loc C d) out /\
     forall more, D (d_state C d) (bs ++ more) = out ++ D (d_state C d') more) \/
    (exists e, dec_push C d bs = (d', Err e) /\ d_stop C d = true).
Proof.
  intros d bs Hb. unfold dec_push, convert. rewrite Hb. cbn [app].
  destruct (loop_push (length bs + 2) (d_stop C d) (d_state C d) bs ltac:(lia)) as (st' & out & n & g & A & B & G).
  rewrite A. destruct g.
  - unfold garbled_detected. eexists. right. eexists. split; [reflexivity|]. destruct (d_stop C d); [reflexivity|]. discriminate (G eq_refl).
  - destruct (B eq_refl) as (-> & B2). eexists. left. exists out. split; [reflexivity|]. cbn. rewrite skipn_all. auto.
Qed.
Lemma flush_cases : forall d, d_buf C d = [] ->
  exists d', (exists out, dec_flush C d = (d', Ok out) /\ D (d_state C d) [] = out) \/
    (exists e, dec_flush C d = (d', Err e) /\ d_stop C d = true).
Proof.
  intros d Hb. unfold dec_flush, convert. rewrite Hb. cbn [app].
  destruct (loop_last (@length byte [] + 2) (d_stop C d) (d_state C d) [] ltac:(cbn; lia)) as (st' & out & n & g & A & B & G).
  rewrite A. destruct g.
  - unfold garbled_detected. eexists. right. eexists. split; [reflexivity|]. destruct (d_stop C d); [reflexivity|]. discriminate (G eq_refl).
  - eexists. left. exists out. split; [reflexivity|]. auto.
Qed.
Lemma pushes_ok : forall frags d d' s, d_buf C d = [] -> pushes d frags = (d', Ok s) ->
  d_buf C d' = [] /\ d_stop C d' = d_stop C d /\ d_loc C d' = loc_push_str (d_loc C d) s /\
  forall more, D (d_state C d) (concat frags ++ more) = s ++ D (d_state C d') more.
Proof.
  induction frags as [|f r IH]; intros d d' s Hb H.
  - cbn in H. injection H as <- <-. auto.
  - cbn [pushes] in H. destruct (push_cases d f Hb) as (d1 & [(out & P1 & P2 & P3 & P4 & P5)|(e & P1 & _)]); rewrite P1 in H; [|discriminate].
    destruct (pushes d1 r) as (d2 & x) eqn:Er. injection H as <- Hx. destruct x as [s2|?|?|]; try discriminate. injection Hx as <-.
    destruct (IH _ _ _ P2 Er) as (Q1 & Q2 & Q3 & Q4). split; [exact Q1|]. split; [congruence|]. split.
    + rewrite Q3, P4. symmetry. apply push_str_app.
    + intros more. cbn [concat]. rewrite <- !app_assoc, P5, Q4. reflexivity.
Qed.
Lemma pushes_total : forall frags d, d_buf C d = [] -> d_stop C d = false -> exists d' s, pushes d frags = (d', Ok s).
Proof.
  induction frags as [|f r IH]; intros d Hb Hs.
  - cbn. eauto.
  - cbn [pushes]. destruct (push_cases d f Hb) as (d1 & [(out & P1 & P2 & P3 & P4 & P5)|(e & P1 & Z)]); [|congruence].
    rewrite P1. destruct (IH d1 P2 ltac:(congruence)) as (d2 & s & ->). cbn. eauto.
Qed.
Lemma decode_all_ok : forall name enc stop frags s, decode_all (dec_new C name enc stop) frags = Ok s ->
  s = D (dc_init C) (concat frags).
Proof.
  intros name enc stop frags s H. unfold decode_all in H. destruct (pushes (dec_new C name enc stop) frags) as (d & x) eqn:Ep.
  destruct x as [s1|?|?|]; try discriminate. cbn in H. destruct (pushes_ok _ (dec_new C name enc stop) _ _ eq_refl Ep) as (Q1 & _ & _ & Q4).
  destruct (flush_cases d Q1) as (d' & [(out & F1 & F2)|(e & F1 & _)]); rewrite F1 in H; cbn in H; [|discriminate].
  injection H as <-. specialize (Q4 []). rewrite app_nil_r, F2 in Q4. symmetry. exact Q4.
Qed.
Lemma decode_all_total : forall name enc frags, decode_all (dec_new C name enc false) frags = Ok (D (dc_init C) (concat frags)).
Proof.
  intros name enc frags. destruct (pushes_total frags (dec_new C name enc false) eq_refl eq_refl) as (d & s & Ep).
  destruct (pushes_ok _ (dec_new C name enc false) _ _ eq_refl Ep) as (Q1 & Q2 & _ & _).
  assert (exists t, decode_all (dec_new C name enc false) frags = Ok t) as (t & Ht).
  { unfold decode_all. rewrite Ep. cbn. destruct (flush_cases d Q1) as (d' & [(out & F1 & F2)|(e & F1 & Z)]); [rewrite F1; cbn; eauto|].
    rewrite Q2 in Z. discriminate. }
  rewrite Ht. f_equal. exact (decode_all_ok _ _ _ _ _ Ht).
Qed.

(** The decoding reader is the source whose chunks are the outputs of the decoder. *)
Fixpoint outputs (d : decoder C) (frags : list (list byte)) : list str :=
  match frags with
  | [] => []
  | f :: r => match dec_push C d f with (d', Ok s) => s :: outputs d' r | _ => [] end
  end.
Lemma outputs_pushes : forall frags d, d_buf C d = [] -> d_stop C d = false ->
  exists d', pushes d frags = (d', Ok (concat (outputs d frags))).
Proof.
  induction frags as [|f r IH]; intros d Hb Hs.
  - cbn. eauto.
  - cbn [pushes outputs]. destruct (push_cases d f Hb) as (d1 & [(out & P1 & P2 & P3 & P4 & P5)|(e & P1 & Z)]); [|congruence].
    rewrite P1. destruct (IH d1 P2 ltac:(congruence)) as (d2 & ->). cbn. eauto.
Qed.
(** The source a decoding reader stands for. *)
Definition stands_for (r : decode_reader C) : source :=
  let text := dr_rest C r ++ concat (outputs (dr_dec C r) (bs_chunks (dr_bytes C r))) in
  Src (dr_rest C r :: outputs (dr_dec C r) (bs_chunks (dr_bytes C r)))
      (match bs_err (dr_bytes C r) with None => None | Some w => Some (Error_ (loc_push_str (dr_loc C r) text) (MIo w)) end).
Definition dr_good (r : decode_reader C) : Prop := d_buf C (dr_dec C r) = [] /\ d_stop C (dr_dec C r) = false.
Lemma fetch_source : forall frags err d l, d_buf C d = [] -> d_stop C d = false ->
  match src_chunks (outputs d frags) with
  | [] => exists d', dr_fetch C frags err d l = ([], d', match err with None => Ok [] | Some w => Err (Error_ l (MIo w)) end) /\
            d_buf C d' = [] /\ d_stop C d' = false /\ outputs d' [] = []
  | c :: r => exists d' fr, dr_fetch C frags err d l = (fr, d', Ok c) /\ d_buf C d' = [] /\ d_stop C d' = false /\
            outputs d' fr = r
  end.
Proof.
  induction frags as [|f r IH]; intros err d l Hb Hs.
  - cbn. exists d. auto.
  - cbn [outputs dr_fetch]. destruct (push_cases d f Hb) as (d1 & [(out & P1 & P2 & P3 & P4 & P5)|(e & P1 & Z)]); [|congruence].
    rewrite P1. destruct out as [|x out].
    + cbn [src_chunks]. apply IH; [exact P2|congruence].
    + cbn [src_chunks]. exists d1, r. repeat split; auto. congruence.
Qed.
Lemma src_chunks_app : forall s cs, s <> [] -> src_chunks (s :: cs) = s :: cs.
Proof. intros s cs H. destruct s; [contradiction|reflexivity]. Qed.
Lemma push_str_split : forall l s t, loc_push_str l (s ++ t) = loc_push_str (loc_push_str l s) t.
Proof. exact push_str_app. Qed.
Definition same_source (s t : source) : Prop :=
  src_chunks (s_chunks s) = src_chunks (s_chunks t) /\ s_end s = s_end t.
Lemma same_source_read : forall n s t, same_source s t -> src_read n s = src_read n t.
Proof. intros n s t (A & B). unfold src_read. rewrite A, B. reflexivity. Qed.
Lemma reader_source : forall n r, dr_good r ->
  exists x r' s', dr_read C n r = (r', x) /\ src_read n (stands_for r) = (x, s') /\ same_source s' (stands_for r') /\ dr_good r'.
Proof.
  intros n r (Hb & Hs). unfold dr_read, src_read, stands_for. cbn [s_chunks s_end].
  destruct (dr_rest C r) as [|y ys] eqn:Er.
  - cbn [src_chunks app]. pose proof (fetch_source (bs_chunks (dr_bytes C r)) (bs_err (dr_bytes C r)) (dr_dec C r) (dr_loc C r) Hb Hs) as F.
    pose proof (src_chunks_concat (outputs (dr_dec C r) (bs_chunks (dr_bytes C r)))) as Hc.
    destruct (src_chunks (outputs (dr_dec C r) (bs_chunks (dr_bytes C r)))) as [|c cs].
    + destruct F as (d' & F1 & F2 & F3 & F4). rewrite F1. cbn in Hc. rewrite <- Hc. cbn [loc_push_str fold_left].
      destruct (bs_err (dr_bytes C r)) as [w|]; cbn.
      * eexists _, _, _. split; [reflexivity|]. split; [reflexivity|]. split; [split; reflexivity|split; assumption].
      * eexists _, _, _. rewrite firstn_nil, skipn_nil. split; [reflexivity|]. split; [reflexivity|]. split; [split; reflexivity|split; assumption].
    + destruct F as (d' & fr & F1 & F2 & F3 & F4). rewrite F1. eexists _, _, _. split; [reflexivity|]. split; [reflexivity|]. split; [|split; assumption].
      cbn [dr_rest dr_dec dr_bytes bs_chunks bs_err dr_loc]. rewrite F4. split; [reflexivity|]. cbn [s_end].
      destruct (bs_err (dr_bytes C r)); [|reflexivity]. do 2 f_equal. rewrite <- Hc. cbn [concat].
      rewrite <- push_str_split, app_assoc, firstn_skipn. reflexivity.
  - cbn [src_chunks]. eexists _, _, _. split; [reflexivity|]. split; [reflexivity|]. split; [|split; assumption].
    cbn [dr_rest dr_dec dr_bytes bs_chunks bs_err dr_loc]. split; [reflexivity|]. cbn [s_end].
    destruct (bs_err (dr_bytes C r)); [|reflexivity]. do 2 f_equal.
    rewrite <- push_str_split, app_assoc, firstn_skipn. reflexivity.
Qed.

(** Reading a source piece by piece. *)
Fixpoint src_reads (sizes : list nat) (s : source) : list (res str) :=
  match sizes with
  | [] => []
  | n :: ns => let '(x, s1) := src_read n s in x :: src_reads ns s1
  end.
Lemma src_reads_same : forall sizes s t, same_source s t -> src_reads sizes s = src_reads sizes t.
Proof. destruct sizes as [|n ns]; intros s t H; cbn; [reflexivity|]. rewrite (same_source_read n s t H). reflexivity. Qed.
Lemma dr_reads_source : forall sizes r, dr_good r -> snd (dr_reads sizes r) = src_reads sizes (stands_for r).
Proof.
  induction sizes as [|n ns IH]; intros r G; [reflexivity|]. cbn [dr_reads src_reads].
  destruct (reader_source n r G) as (x & r' & s' & A & B & Sm & G'). rewrite A, B. specialize (IH r' G').
  destruct (dr_reads ns r') as (r2 & xs). cbn [snd] in *. rewrite IH, (src_reads_same _ _ _ Sm). reflexivity.
Qed.
Lemma src_reads_ok : forall sizes s, s_end s = None -> Forall (fun n => 0 < n) sizes ->
  exists texts rest, src_reads sizes s = map Ok texts /\ concat (s_chunks s) = concat texts ++ rest /\ (In [] texts -> rest = []).
Proof.
  induction sizes as [|n ns IH]; intros s He Hs.
  - exists [], (concat (s_chunks s)). cbn. repeat split. intros [].
  - cbn [src_reads]. unfold src_read. pose proof (src_chunks_concat (s_chunks s)) as Hc. pose proof (src_chunks_head (s_chunks s)) as Hh.
    destruct (src_chunks (s_chunks s)) as [|c cs].
    + rewrite He. destruct (IH (Src [] None) eq_refl (Forall_inv_tail Hs)) as (texts & rest & A & B & _).
      cbn in B. symmetry in B. apply app_eq_nil in B as (B1 & B2). exists ([] :: texts), []. cbn. rewrite A. cbn in Hc. rewrite <- Hc, B1. auto.
    + destruct (IH (Src (skipn n c :: cs) (s_end s)) He (Forall_inv_tail Hs)) as (texts & rest & A & B & Q).
      exists (firstn n c :: texts), rest. cbn. rewrite A. split; [reflexivity|]. split.
      * rewrite <- Hc. cbn [concat s_chunks] in *. rewrite <- app_assoc, <- B, app_assoc, firstn_skipn. reflexivity.
      * intros [Z|Z]; [|auto]. apply Forall_inv in Hs. specialize (Hh c cs eq_refl). destruct n; [lia|]. destruct c; [contradiction|discriminate].
Qed.
Lemma decoder_progress : forall name enc frags, exists q, forall more,
  D (dc_init C) (concat frags ++ more) = concat (outputs (dec_new C name enc false) frags) ++ D q more.
Proof.
  intros name enc frags. destruct (outputs_pushes frags (dec_new C name enc false) eq_refl eq_refl) as (d' & Hp).
  destruct (pushes_ok _ (dec_new C name enc false) _ _ eq_refl Hp) as (_ & _ & _ & Q). exists (d_state C d'). exact Q.
Qed.
Lemma dr_reads_complete : forall name enc frags sizes, Forall (fun n => 0 < n) sizes ->
  exists texts rest q, snd (dr_reads sizes (dr_new C name enc (BS frags None))) = map Ok texts /\
    (In [] texts -> rest = []) /\
    forall more, D (dc_init C) (concat frags ++ more) = concat texts ++ rest ++ D q more.
Proof.
  intros name enc frags sizes Hs. rewrite dr_reads_source by (split; reflexivity).
  destruct (src_reads_ok sizes (stands_for (dr_new C name enc (BS frags None))) eq_refl Hs) as (texts & rest & A & B & Q).
  destruct (decoder_progress name enc frags) as (q & P). exists texts, rest, q. split; [exact A|]. split; [exact Q|].
  intros more. rewrite P. cbn in B. rewrite B, <- app_assoc. reflexivity.
Qed.

(** [lex::parse] feeds the decoded pieces to the lexer. *)
Lemma parse_loop_feed : forall frags err d lx, d_buf C d = [] -> d_stop C d = false ->
  exists d', pushes d frags = (d', Ok (concat (outputs d frags))) /\
  parse_loop C frags err d lx =
    match feed lx (map FStr (outputs d frags)) with
    | (lx', Ok rs) => match err with None => Ok (d', lx', rs) | Some w => Err (Error_ (tk_loc (lx_tk lx')) (MLoadFailed w)) end
    | (_, Err e) => Err e
    | (_, Panic p) => Panic p
    | (_, OutOfFuel) => OutOfFuel
    end.
Proof.
  induction frags as [|f r IH]; intros err d lx Hb Hs.
  - exists d. split; [reflexivity|]. cbn. reflexivity.
  - cbn [outputs pushes parse_loop]. destruct (push_cases d f Hb) as (d1 & [(out & P1 & P2 & P3 & P4 & P5)|(e & P1 & Z)]); [|congruence].
    rewrite P1. cbn [map feed call]. destruct (outputs_pushes r d1 P2 ltac:(congruence)) as (d2 & Hp). rewrite Hp.
    exists d2. split; [reflexivity|]. cbn [bind]. destruct (lx_push_str lx out) as (lx1 & y) eqn:El. destruct y as [rs1|e|p|]; try reflexivity. cbn [bind].
    destruct (IH err d1 lx1 P2 ltac:(congruence)) as (d3 & Hp3 & I1). rewrite Hp in Hp3. injection Hp3 as <-. rewrite I1.
    destruct (feed lx1 (map FStr (outputs d1 r))) as (lx2 & z). destruct z as [rs2|e|p|]; try reflexivity. destruct err; reflexivity.
Qed.
Lemma feed_app : forall a lx b, feed lx (a ++ b) =
  match feed lx a with
  | (lx1, Ok rs1) => match feed lx1 b with (lx2, Ok rs2) => (lx2, Ok (rs1 ++ rs2)) | x => x end
  | x => x
  end.
Proof.
  induction a as [|f a IH]; intros lx b; cbn [app feed].
  - destruct (feed lx b) as (lx2 & [rs| | |]); reflexivity.
  - destruct (call lx f) as (lx1 & [rs1| | |]); try reflexivity. rewrite IH.
    destruct (feed lx1 a) as (lx2 & [rs2| | |]); try reflexivity.
    destruct (feed lx2 b) as (lx3 & [rs3| | |]); try reflexivity. rewrite app_assoc. reflexivity.
Qed.
Lemma lex_parse_fragments : forall name enc max frags, exists texts,
  lex_parse C name enc max (BS frags None) = lex_fragments name max (map FStr texts) /\
  concat texts = D (dc_init C) (concat frags).
Proof.
  intros name enc max frags. destruct (parse_loop_feed frags None (dec_new C name enc false) (lx_new name max) eq_refl eq_refl) as (d' & Hp & Hl).
  destruct (pushes_ok _ (dec_new C name enc false) _ _ eq_refl Hp) as (Q1 & Q2 & _ & Q4).
  destruct (flush_cases d' Q1) as (d2 & [(out & F1 & F2)|(e & F1 & Z)]); [|rewrite Q2 in Z; discriminate].
  exists (outputs (dec_new C name enc false) frags ++ [out]). split.
  - unfold lex_parse, lex_fragments. cbn [bs_chunks bs_err]. rewrite Hl, map_app, feed_app. cbn [map].
    destruct (feed (lx_new name max) (map FStr (outputs (dec_new C name enc false) frags))) as (lx1 & [rs1|e|p|]); try reflexivity.
    cbn [bind]. rewrite F1. cbn [bind feed call]. destruct (lx_push_str lx1 out) as (lx2 & [rs2|e|p|]); try reflexivity. cbn [bind].
    destruct (lx_flush lx2) as (lx3 & [o|e|p|]); try reflexivity. cbn [bind]. rewrite app_nil_r, app_assoc. reflexivity.
  - rewrite concat_app. cbn. rewrite app_nil_r, <- F2. specialize (Q4 []). rewrite app_nil_r in Q4. symmetry. exact Q4.
Qed.
Lemma frags_text_strs : forall texts, frags_text (map FStr texts) = concat texts.
Proof. induction texts as [|t ts IH]; cbn; [reflexivity|]. f_equal. exact IH. Qed.
Lemma lex_parse_ok_iff : forall name enc frags rs,
  lex_parse C name enc 0 (BS frags None) = Ok rs <-> parse_str name (D (dc_init C) (concat frags)) = Ok rs.
Proof.
  intros name enc frags rs. destruct (lex_parse_fragments name enc 0 frags) as (texts & -> & <-).
  rewrite frags_ok_iff, frags_text_strs. reflexivity.
Qed.

(** A failing byte stream. *)
Lemma steps_texts : forall l b ts l' b', steps l b ts l' b' -> b = flat_map tok_text ts ++ b' /\ l' = loc_push_str l (flat_map tok_text ts).
Proof.
  induction 1 as [l b|l b t n ts l' b' H1 H2 (I1 & I2)]; [split; reflexivity|].
  destruct (read_next_split _ _ _ _ _ H1) as (A & B & _). cbn [flat_map]. rewrite <- app_assoc, <- I1. split; [exact B|].
  rewrite I2, A, push_str_app. reflexivity.
Qed.
Lemma feed_location : forall texts lx lx' rs, good lx -> feed lx (map FStr texts) = (lx', Ok rs) -> good lx' /\
  exists done, buf lx ++ concat texts = done ++ buf lx' /\ loc lx' = loc_push_str (loc lx) done.
Proof.
  induction texts as [|t ts IH]; intros lx lx' rs G H.
  - cbn in H. injection H as <- <-. split; [exact G|]. exists []. rewrite app_nil_r. auto.
  - cbn [map feed] in H. destruct (call lx (FStr t)) as (lx1 & [rs1| | |]) eqn:Ec; try discriminate.
    destruct (feed lx1 (map FStr ts)) as (lx2 & [rs2| | |]) eqn:Ef; try discriminate. injection H as <- <-.
    assert (G1 : good lx1 /\ exists done, buf lx ++ t = done ++ buf lx1 /\ loc lx1 = loc_push_str (loc lx) done).
    { rewrite call_eq in Ec by exact G. unfold call_rules in Ec. cbn [frag_text] in Ec.
      destruct (over_capacity (lx_tk lx) (length t)) eqn:Eo.
      { unfold tk_push_str in Ec. rewrite Eo in Ec. discriminate. }
      rewrite push_tl in Ec by exact Eo.
      destruct (tl (tk_loc (lx_tk lx)) (tk_buf (lx_tk lx) ++ t)) as [l [[tk b]| | |]] eqn:Et; try discriminate.
      apply tl_ok in Et as (Hst & Hstuck). unfold lx_append in Ec.
      destruct (append_loop (lx_tokens lx) tk) as [c r] eqn:Ea. injection Ec as <- _.
      split; [exact Hstuck|]. destruct (steps_texts _ _ _ _ _ Hst) as (S1 & S2). exists (flat_map tok_text tk). split; [exact S1|exact S2]. }
    destruct G1 as (G1 & d1 & B1 & L1). destruct (IH _ _ _ G1 Ef) as (G2 & d2 & B2 & L2). split; [exact G2|].
    exists (d1 ++ d2). cbn [concat]. rewrite app_assoc, B1, <- !app_assoc, B2. split; [reflexivity|]. rewrite L2, L1, push_str_app. reflexivity.
Qed.
Lemma lex_parse_failing : forall name enc max frags w, exists texts q,
  (forall more, D (dc_init C) (concat frags ++ more) = concat texts ++ D q more) /\
  ((lex_parse C name enc max (BS frags (Some w)) = snd (feed (lx_new name max) (map FStr texts)) /\
    is_ok (snd (feed (lx_new name max) (map FStr texts))) = false) \/
   exists l done pending, lex_parse C name enc max (BS frags (Some w)) = Err (Error_ l (MLoadFailed w)) /\
     concat texts = done ++ pending /\ reaches (loc_new name) done l).
Proof.
  intros name enc max frags w. destruct (parse_loop_feed frags (Some w) (dec_new C name enc false) (lx_new name max) eq_refl eq_refl) as (d' & Hp & Hl).
  destruct (pushes_ok _ (dec_new C name enc false) _ _ eq_refl Hp) as (Q1 & Q2 & _ & Q4).
  exists (outputs (dec_new C name enc false) frags), (d_state C d'). split; [exact Q4|].
  unfold lex_parse. cbn [bs_chunks bs_err]. rewrite Hl.
  destruct (feed (lx_new name max) (map FStr (outputs (dec_new C name enc false) frags))) as (lx1 & [rs1|e|p|]) eqn:Ef; cbn [snd bind].
  - right. destruct (feed_location _ _ _ _ (good_new _ _) Ef) as (_ & dn & B & L). cbn [buf lx_new lx_tk tk_buf app] in B.
    exists (tk_loc (lx_tk lx1)), dn, (buf lx1). split; [reflexivity|]. split; [exact B|]. apply reaches_push. exact L.
  - left. auto.
  - left. auto.
  - left. auto.
Qed.
End Codec.
