(** C54 and C55: decoders that stop at garbled input, and reading a syntax from a string. *)
From Coq Require Import String List NArith Arith Bool Lia.
From Verif Require Import Base Tokenizer Ast Lex Syntax Io Decode Read SpecText SpecTok SpecLex SpecIo SpecDecode SpecUtf8 GarbleFacts.
Import ListNotations.
Open Scope nat_scope.

(** The assumptions about converters are met by UTF-8 with any output buffer. *)
Theorem C54_assumption_is_met : forall cap, 0 < cap -> reporting (codec_of utf8 cap) (td_text utf8).
Proof. exact utf8_reporting. Qed.
Print Assumptions C54_assumption_is_met.
Theorem C55_assumption_is_met : forall cap, 0 < cap -> decodes_utf8 (codec_of utf8 cap).
Proof. exact utf8_decodes. Qed.
Print Assumptions C55_assumption_is_met.
(** ... also that of C23, C28 and C29. *)
Theorem C28_assumption_is_met_by_utf8 : forall cap, 0 < cap ->
  incremental (codec_of utf8 cap) (fun st bs => text_of (td_text utf8 st bs)).
Proof. exact (fun cap H => reporting_incremental _ _ (utf8_reporting cap H)). Qed.
Print Assumptions C28_assumption_is_met_by_utf8.

(** C54: a decoder told to stop succeeds exactly when nothing is garbled ... *)
Theorem C54_stops_iff_garbled : forall C D, reporting C D -> forall name enc frags,
  let m := D (dc_init C) (concat frags) in
  (has_mark m = false -> decode_all (dec_new C name enc true) frags = Ok (text_of m)) /\
  (forall a c b, m = a ++ (c, true) :: b -> has_mark a = false ->
   exists e x y, decode_all (dec_new C name enc true) frags = Err e /\ text_of m = x ++ 65533%N :: y /\
     length x <= length a /\ reaches (loc_new name) (x ++ [65533%N]) (e_loc e)).
Proof. exact stopping. Qed.
Print Assumptions C54_stops_iff_garbled.
(** ... and its error is located just behind the first garbled character, however the
    bytes arrive, when the text before has no replacement character of its own. *)
Theorem C54_garbled_location : forall C D, reporting C D -> forall name enc frags a c b,
  D (dc_init C) (concat frags) = a ++ (c, true) :: b -> has_mark a = false -> ~ In 65533%N (text_of a) ->
  exists e, decode_all (dec_new C name enc true) frags = Err e /\ reaches (loc_new name) (text_of a ++ [65533%N]) (e_loc e).
Proof. exact stopping_exact. Qed.
Print Assumptions C54_garbled_location.
(** Two lines, the second with a broken two-byte character, cut inside a character. *)
Example C54_case :
  let frags := [[97; 195]; [169; 10; 98]; [195]; [40; 99]]%N in
  td_text utf8 (td_init utf8) (concat frags) = plain [97; 233; 10; 98]%N ++ [(65533%N, true)] ++ plain [40; 99]%N /\
  (exists m, decode_all (dec_new (codec_of utf8 3) [] [] true) frags = Err (Error_ (Loc [] 2 3) m)) /\
  decode_all (dec_new (codec_of utf8 3) [] [] true) [[97; 195]; [169]]%N = Ok [97; 233]%N.
Proof. split; [vm_compute; reflexivity|]. split; [eexists; vm_compute; reflexivity|vm_compute; reflexivity]. Qed.
(** The condition is needed: a genuine replacement character of the same call is taken
    for the garbled one. *)
Theorem C54_garbled_location_refuted : exists C D frags a c b e,
  reporting C D /\ D (dc_init C) (concat frags) = a ++ (c, true) :: b /\ has_mark a = false /\
  decode_all (dec_new C [] [] true) frags = Err e /\ ~ reaches (loc_new []) (text_of a ++ [65533%N]) (e_loc e).
Proof.
  exists (codec_of utf8 16), (td_text utf8), [[239; 191; 189; 97; 255]]%N, (plain [65533; 97]%N), 65533%N, [].
  eexists. split; [apply utf8_reporting; lia|]. split; [vm_compute; reflexivity|]. split; [reflexivity|]. split; [vm_compute; reflexivity|].
  intros (_ & _ & H & _). revert H. vm_compute. intros H.
  assert (K : 2%N = 4%N) by (apply H; intros [K|[K|[K|[]]]]; discriminate). discriminate.
Qed.
Print Assumptions C54_garbled_location_refuted.

(** C55: reading a syntax from a string is parsing the string and building the syntax;
    a byte order mark in front is dropped. *)
Theorem C55_read_from_str : forall C, decodes_utf8 C -> forall name s, Forall scalar s -> forall sy,
  read_from_str C name s 0 = Ok sy <-> exists rs, parse_str name (no_bom s) = Ok rs /\ new_syntax rs = Ok sy.
Proof. exact read_str_ok. Qed.
Print Assumptions C55_read_from_str.
(** With any buffer limit it is the lexer on some fragmentation of the text. *)
Theorem C55_read_from_str_limited : forall C, decodes_utf8 C -> forall name s max, Forall scalar s -> exists texts,
  concat texts = no_bom s /\
  read_from_str C name s max = (let? rs := lex_fragments name max (map FStr texts) in new_syntax rs).
Proof. exact read_str_fragments. Qed.
Print Assumptions C55_read_from_str_limited.
Example C55_case :
  let s := of_string "a = 'x' | b; b = 2 * 'y';" in
  is_ok (read_from_str (codec_of utf8 3) [] s 0) = true /\
  read_from_str (codec_of utf8 3) [] (65279%N :: s) 0 = (let? rs := parse_str [] s in new_syntax rs) /\
  is_ok (parse_str [] (65279%N :: s)) = false /\
  read_from_str (codec_of utf8 3) [] (of_string "a = '" ++ [12354; 128512]%N) 0 = Err (Error_ (Loc [] 1 5) (MTermBadChar 12354)).
Proof. vm_compute. repeat split; reflexivity. Qed.
