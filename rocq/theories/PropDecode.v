(** C23, C28, C29 and the byte-stream part of C50, for every encoding whose converter
    is an incremental transducer (SpecDecode.v). *)
From Coq Require Import String List NArith Arith Bool Lia.
From Verif Require Import Base Tokenizer Ast Lex Io Decode SpecText SpecTok SpecLex SpecIo SpecDecode DecodeFacts.
Import ListNotations.
Open Scope nat_scope.

(** The assumption about the converter can be met by a converter with a bounded output
    buffer, pending input and replacement characters. *)
Theorem C28_assumption_is_met : incremental wide wide_text.
Proof. exact wide_incremental. Qed.
Print Assumptions C28_assumption_is_met.

(** C23: with an unlimited buffer. *)
Theorem C23_byte_stream_parse : forall C D, incremental C D -> forall name enc frags rs,
  lex_parse C name enc 0 (BS frags None) = Ok rs <-> parse_str name (D (dc_init C) (concat frags)) = Ok rs.
Proof. exact lex_parse_ok_iff. Qed.
Print Assumptions C23_byte_stream_parse.
(** With any limit the result is that of the lexer on some fragmentation of the decoded
    text, so C06-C08 apply. *)
Theorem C23_byte_stream_is_fragments : forall C D, incremental C D -> forall name enc max frags, exists texts,
  lex_parse C name enc max (BS frags None) = lex_fragments name max (map FStr texts) /\
  concat texts = D (dc_init C) (concat frags).
Proof. exact lex_parse_fragments. Qed.
Print Assumptions C23_byte_stream_is_fragments.
(** Fragments that cut characters in half. *)
Example C23_case :
  let bytes := flat_map (fun c => [0%N; c]) (of_string "ab = 'x' | c;") in
  let frags := [firstn 3 bytes; firstn 6 (skipn 3 bytes); skipn 9 bytes] in
  lex_parse wide [] [] 0 (BS frags None) = parse_str [] (wide_text None (concat frags)) /\
  is_ok (lex_parse wide [] [] 0 (BS frags None)) = true.
Proof. vm_compute. split; reflexivity. Qed.

(** C28: replacing decoders never fail and give the decoding of the whole; a decoder
    that stops at garbled input gives it whenever it does not stop. *)
Theorem C28_decoder_fragmentation : forall C D, incremental C D -> forall name enc frags,
  decode_all (dec_new C name enc false) frags = Ok (D (dc_init C) (concat frags)).
Proof. exact decode_all_total. Qed.
Print Assumptions C28_decoder_fragmentation.
Theorem C28_stopping_decoder : forall C D, incremental C D -> forall name enc stop frags s,
  decode_all (dec_new C name enc stop) frags = Ok s -> s = D (dc_init C) (concat frags).
Proof. exact decode_all_ok. Qed.
Print Assumptions C28_stopping_decoder.
Example C28_case :
  let frags := [[0%N; 97%N; 1%N]; []; [2%N; 0%N; 98%N; 0%N; 99%N; 0%N; 100%N; 3%N]] in
  decode_all (dec_new wide [] [] false) frags = Ok [97%N; 258%N; 98%N; 99%N; 100%N; 65533%N] /\
  decode_all (dec_new wide [] [] true) [[0%N; 97%N; 0%N]; [98%N]] = Ok [97%N; 98%N] /\
  is_ok (decode_all (dec_new wide [] [] true) frags) = false.
Proof. vm_compute. repeat split; reflexivity. Qed.

(** C29 is false: at the end of the stream the decoder is not flushed, so an incomplete
    last character disappears instead of being replaced. *)
Theorem C29_reader_complete_refuted : exists C D frags sizes texts, incremental C D /\
  Forall (fun n => 0 < n) sizes /\
  snd (dr_reads sizes (dr_new C [] [] (BS frags None))) = map Ok texts /\ In [] texts /\
  concat texts <> D (dc_init C) (concat frags).
Proof.
  exists wide, wide_text, [[0%N; 97%N; 0%N]], [5; 5], [[97%N]; []]. split; [exact wide_incremental|].
  split; [repeat constructor|]. split; [vm_compute; reflexivity|]. split; [right; left; reflexivity|]. vm_compute. discriminate.
Qed.
Print Assumptions C29_reader_complete_refuted.
(** What holds: the reads give the text that the bytes determine whatever follows them;
    only what the converter adds at the end of the stream is missing. *)
Theorem C29_reader_complete_up_to_flush : forall C D, incremental C D -> forall name enc frags sizes,
  Forall (fun n => 0 < n) sizes ->
  exists texts rest q, snd (dr_reads sizes (dr_new C name enc (BS frags None))) = map Ok texts /\
    (In [] texts -> rest = []) /\
    forall more, D (dc_init C) (concat frags ++ more) = concat texts ++ rest ++ D q more.
Proof. exact dr_reads_complete. Qed.
Print Assumptions C29_reader_complete_up_to_flush.
Example C29_case :
  snd (dr_reads [1; 4; 2; 2; 2] (dr_new wide [] [] (BS [[0%N; 97%N; 0%N]; [98%N]; [0%N; 10%N; 0%N; 99%N; 0%N; 100%N]] None)))
  = map Ok [[97%N]; [98%N]; [10%N; 99%N]; [100%N]; []].
Proof. vm_compute. reflexivity. Qed.
(** The reader is one of the chunked sources of the reader theorems (C24-C27). *)
Theorem C29_reader_is_a_source : forall C D, incremental C D -> forall name enc b sizes,
  exists chunks, snd (dr_reads sizes (dr_new C name enc b)) =
    src_reads sizes (Src chunks (match bs_err b with
                                 | None => None
                                 | Some w => Some (Error_ (loc_push_str (loc_new name) (concat chunks)) (MIo w))
                                 end)) /\
    exists q, forall more, D (dc_init C) (concat (bs_chunks b) ++ more) = concat chunks ++ D q more.
Proof.
  exact (fun C D I name enc b sizes => ex_intro _ _ (conj (dr_reads_source C D I sizes (dr_new C name enc b) (conj eq_refl eq_refl))
           (decoder_progress C D I name enc (bs_chunks b)))).
Qed.
Print Assumptions C29_reader_is_a_source.

(** C50: a byte stream that fails makes [lex::parse] fail: with the error the lexer has
    already found in the text so far, or at the location where the lexer is. *)
Theorem C50_stream_failure : forall C D, incremental C D -> forall name enc max frags w, exists texts q,
  (forall more, D (dc_init C) (concat frags ++ more) = concat texts ++ D q more) /\
  ((lex_parse C name enc max (BS frags (Some w)) = snd (feed (lx_new name max) (map FStr texts)) /\
    is_ok (snd (feed (lx_new name max) (map FStr texts))) = false) \/
   exists l done pending, lex_parse C name enc max (BS frags (Some w)) = Err (Error_ l (MLoadFailed w)) /\
     concat texts = done ++ pending /\ reaches (loc_new name) done l).
Proof. exact lex_parse_failing. Qed.
Print Assumptions C50_stream_failure.
Example C50_case :
  lex_parse wide [] [] 0 (BS [[0%N; 97%N; 0%N]; [61%N; 0%N; 98%N]] (Some (of_string "gone"))) =
  Err (Error_ (Loc [] 1 3) (MLoadFailed (of_string "gone"))).
Proof. vm_compute. reflexivity. Qed.
