(** Properties C69, C70: parsing bytes is parsing the text they encode; files and labels.

    The table of encodings ([for_label]) and the file system ([open]) are arbitrary;
    [incremental], [reporting], [prompt] and [streams_utf8] (SpecDecode.v, SpecUtf8.v,
    SpecOpen.v) say what is assumed of a converter. *)
From Coq Require Import String List NArith Arith Bool Lia.
From Verif Require Import Base Ident Tokenizer Ast Lex Syntax Io Graph Machine Decode Read Open SpecText SpecSyntax SpecTok SpecLex SpecIo SpecDecode SpecUtf8 SpecOpen
  TextFacts TokRun LexRun IoFacts DecodeFacts GarbleFacts SyntaxFacts SpecParse SpecMachine Pure PureFacts MachineFacts OpenFacts PropSyntax PropParse.
Import ListNotations.
Open Scope nat_scope.

Theorem C69_assumption_is_met : forall cap, 0 < cap -> streams_utf8 (codec_of utf8 cap).
Proof. exact utf8_streams. Qed.
Print Assumptions C69_assumption_is_met.
(** C69: a reader that decodes bytes as they are needed replies to all calls as a reader
    over the chunks of text that come out ... *)
Theorem C69_replies : forall C D, incremental C D -> forall debug calls name label b,
  live_replies debug calls (Live C (dr_new C name label b) (UB (loc_new name) [] 0 0 [])) =
  replies debug calls (mr_new (loc_new name) (dr_source C (dr_new C name label b))).
Proof. exact live_new. Qed.
Print Assumptions C69_replies.
(** ... so a parse of bytes in any encoding is a parse of the text that the bytes determine,
    whatever follows them, however they arrive. *)
Theorem C69_parse : forall for_label label C D, for_label label = Some C -> incremental C D -> forall name b rd,
  with_encoding for_label name b label = Ok rd -> bs_err b = None ->
  exists text q, (forall more, D (dc_init C) (concat (bs_chunks b) ++ more) = text ++ D q more) /\
    reader rd /\ ending_of rd = None /\ stand rd = Pst text (loc_new name) /\
    forall debug g fuel m, fst (parser_parse debug g fuel m rd) = fst (parser_parse debug g fuel m (mr_of_text (loc_new name) text)).
Proof.
  intros for_label label C D Hl I name b rd H He. unfold with_encoding, decode_reader_new, decoder_new in H. rewrite Hl in H. cbn in H. injection H as <-.
  change (DR C b (dec_new C name label false) [] (loc_new name)) with (dr_new C name label b).
  destruct (bytes_text C D I name label b) as (q & Hq). eexists. exists q. split; [exact Hq|].
  assert (E : ending_of (mr_new (loc_new name) (dr_source C (dr_new C name label b))) = None) by (cbn; rewrite He; reflexivity).
  split; [apply rd_new|]. split; [exact E|]. split; [reflexivity|].
  intros debug g fuel m. apply C30_text_only; [apply rd_new|apply rd_new| |exact E]. unfold stand, unread. cbn. rewrite app_nil_r. reflexivity.
Qed.
Print Assumptions C69_parse.
(** C69 for UTF-8: nothing is missing at the end; a byte order mark in front is dropped. *)
Theorem C69_utf8 : forall for_label label C, for_label label = Some C -> streams_utf8 C -> forall name s frags rd,
  Forall scalar s -> concat frags = as_bytes s -> with_encoding for_label name (BS frags None) label = Ok rd ->
  reader rd /\ ending_of rd = None /\ stand rd = Pst (no_bom s) (loc_new name) /\
  forall debug g fuel m, fst (parser_parse debug g fuel m rd) = fst (parser_parse debug g fuel m (mr_of_text (loc_new name) (no_bom s))).
Proof.
  intros for_label label C Hl Hc name s frags rd Hs Hf H. pose proof Hc as (D & R & _).
  destruct (C69_parse for_label label C _ Hl (reporting_incremental C D R) name _ rd H eq_refl) as (text & q & _ & A & B & E & K).
  assert (Ht : text = no_bom s); [|subst text; auto].
  unfold with_encoding, decode_reader_new, decoder_new in H. rewrite Hl in H. cbn in H. injection H as <-.
  rewrite <- (utf8_unread C Hc name label s frags Hs Hf). symmetry. exact (f_equal p_rest E).
Qed.
Print Assumptions C69_utf8.
(** [MarkableReader::for_bytes]. *)
Theorem C69_for_bytes : forall for_label label C, for_label label = Some C -> streams_utf8 C -> forall name s,
  Forall scalar s -> exists rd, for_bytes for_label name (as_bytes s) label = Ok rd /\ reader rd /\
  forall debug g fuel m, fst (parser_parse debug g fuel m rd) = fst (parser_parse debug g fuel m (mr_of_text (loc_new name) (no_bom s))).
Proof.
  intros for_label label C Hl Hc name s Hs. unfold for_bytes.
  assert (E : exists rd, with_encoding for_label name (cursor_stream (as_bytes s)) label = Ok rd).
  { unfold with_encoding, decode_reader_new, decoder_new. rewrite Hl. cbn. eauto. }
  destruct E as (rd & E). exists rd. split; [exact E|].
  destruct (C69_utf8 for_label label C Hl Hc name s _ rd Hs (cursor_stream_all _) E) as (A & _ & _ & K). auto.
Qed.
Print Assumptions C69_for_bytes.

Lemma read_utf8 : forall C, decodes_utf8 C -> forall name label s frags rs, Forall scalar s -> concat frags = as_bytes s ->
  lex_parse C name label 0 (BS frags None) = Ok rs <-> parse_str name (no_bom s) = Ok rs.
Proof.
  intros C (D & R & HD) name label s frags rs Hs Hf. pose proof (lex_parse_ok_iff C _ (reporting_incremental C D R) name label frags rs) as K.
  rewrite Hf, HD, plain_text in K by assumption. exact K.
Qed.
(** C70: a file that holds a text in UTF-8 gives the rules of the text ... *)
Theorem C70_file : forall for_label open label C, for_label label = Some C -> decodes_utf8 C -> forall name s frags,
  Forall scalar s -> open name = inl (BS frags None) -> concat frags = as_bytes s ->
  forall rs, parse_file for_label open name label 0 = Ok rs <-> parse_str name (no_bom s) = Ok rs.
Proof.
  intros for_label open label C Hl Hc name s frags Hs Ho Hf rs. unfold parse_file, parse_stream, decoder_new. rewrite Ho, Hl. cbn [bind projT1].
  apply read_utf8; assumption.
Qed.
Print Assumptions C70_file.
(** ... and a stream gives its syntax. *)
Theorem C70_syntax : forall for_label label C, for_label label = Some C -> decodes_utf8 C -> forall name s frags,
  Forall scalar s -> concat frags = as_bytes s ->
  forall sy, syntax_from for_label name label 0 (BS frags None) = Ok sy <->
    exists rs, parse_str name (no_bom s) = Ok rs /\ new_syntax rs = Ok sy.
Proof.
  intros for_label label C Hl Hc name s frags Hs Hf sy. unfold syntax_from, parse_stream, decoder_new. rewrite Hl. cbn [bind projT1].
  pose proof (fun rs => read_utf8 C Hc name label s frags rs Hs Hf) as K. split.
  - destruct (lex_parse C name label 0 (BS frags None)) as [rs| | |]; cbn; intros H; try discriminate. exists rs. split; [apply K; reflexivity|exact H].
  - intros (rs & H1 & H2). apply K in H1. rewrite H1. exact H2.
Qed.
Print Assumptions C70_syntax.
(** A file that cannot be opened is reported before the label is looked at, and an unknown
    label before anything is read; both at the start of the named source. *)
Theorem C70_not_opened : forall for_label open name label max why, open name = inr why ->
  parse_file for_label open name label max = Err (Error_ (loc_new name) (MIo why)).
Proof. intros for_label open name label max why H. unfold parse_file. rewrite H. reflexivity. Qed.
Print Assumptions C70_not_opened.
Theorem C70_unknown_label : forall for_label label, for_label label = None ->
  let e name := Error_ (loc_new name) (MUnknownEncoding label) in
  (forall name stop, decoder_new for_label name label stop = Err (e name)) /\
  (forall name b, decode_reader_new for_label name label b = Err (e name)) /\
  (forall name b, with_encoding for_label name b label = Err (e name)) /\
  (forall name max b, parse_stream for_label name label max b = Err (e name)) /\
  (forall name max b, syntax_from for_label name label max b = Err (e name)) /\
  (forall open name max b, open name = inl b -> parse_file for_label open name label max = Err (e name)).
Proof.
  intros for_label label H e. unfold parse_file, syntax_from, parse_stream, with_encoding, decode_reader_new, decoder_new. rewrite H.
  repeat split; try reflexivity. intros open name max b ->. reflexivity.
Qed.
Print Assumptions C70_unknown_label.
(** With a known label no constructor fails. *)
Theorem C70_known_label : forall for_label label C, for_label label = Some C -> forall name b,
  (exists d, decode_reader_new for_label name label b = Ok d) /\ exists rd, with_encoding for_label name b label = Ok rd.
Proof. intros for_label label C H name b. unfold with_encoding, decode_reader_new, decoder_new. rewrite H. cbn. eauto. Qed.
Print Assumptions C70_known_label.

(** A table with one encoding, under two labels; one file. *)
Definition table (label : str) : option codec :=
  if existsb (str_eqb label) [txt "utf-8"; txt "UTF8"] then Some (codec_of utf8 5) else None.
Definition disk (name : str) : bytestream + str :=
  if str_eqb name (txt "g.ebnf") then inl (BS [firstn 9 (as_bytes (txt "S='x',T;T='y'|'z';")); skipn 9 (as_bytes (txt "S='x',T;T='y'|'z';"))] None)
  else inr (txt "not found").
Example C70_case :
  parse_file table disk (txt "g.ebnf") (txt "UTF8") 0 = parse_str (txt "g.ebnf") (txt "S='x',T;T='y'|'z';") /\
  is_ok (parse_file table disk (txt "g.ebnf") (txt "UTF8") 0) = true /\
  parse_file table disk (txt "h.ebnf") (txt "klingon") 0 = Err (Error_ (Loc (txt "h.ebnf") 1 1) (MIo (txt "not found"))) /\
  parse_file table disk (txt "g.ebnf") (txt "klingon") 0 = Err (Error_ (Loc (txt "g.ebnf") 1 1) (MUnknownEncoding (txt "klingon"))).
Proof. split; [vm_compute; reflexivity|]. split; [vm_compute; reflexivity|]. split; vm_compute; reflexivity. Qed.
(** Characters of one, two, three and four bytes, cut everywhere. *)
Definition word_text : str := [97; 233; 10; 8364; 128512; 98]%N.
Definition word_bytes : list (list byte) := map (fun b => [b]) (as_bytes word_text).
Definition any_char : config := fun _ _ => ScChars (fun _ => true) None None.
Example C69_case : Forall scalar word_text /\ concat word_bytes = as_bytes word_text /\
  exists rd, with_encoding table (txt "in") (BS word_bytes None) (txt "utf-8") = Ok rd /\
  parse_case any_char (txt "S='a',? any ?;") (txt "S") true 100 rd =
    Some (Ok [EvBegin (Loc [] 1 1) (Loc (txt "in") 1 1) (txt "S"); EvToken (Loc [] 1 3) (Loc (txt "in") 1 1) (txt "a");
              EvToken (Loc [] 1 7) (Loc (txt "in") 1 2) [233; 10; 8364; 128512; 98]%N; EvEnd (Loc [] 1 1) (Loc (txt "in") 2 4) (txt "S")]).
Proof.
  split; [unfold word_text, scalar; repeat constructor; lia|]. split; [vm_compute; reflexivity|]. eexists. split; [reflexivity|]. vm_compute. reflexivity.
Qed.
(** Calls on a reader over bytes: a mark, two reads across characters cut in half, and
    back. *)
Example C69_replies_case :
  live_replies true [CRead 1; CMark; CRead 4; CRead 4; CWhere; CReset 1%N; CRead 9]
    (Live _ (dr_new (codec_of utf8 5) (txt "in") (txt "utf-8") (BS [[97; 195]; [169; 98; 99]; [100]]%N None)) (UB (loc_new (txt "in")) [] 0 0 [])) =
  [RText (Ok [97]%N); RId (Ok 1%N); RText (Ok [233; 98; 99]%N); RText (Ok [100]%N); RWhere (Ok (Loc (txt "in") 1 6)); RCount (Ok 4); RText (Ok [233; 98; 99; 100]%N)].
Proof. vm_compute. reflexivity. Qed.
