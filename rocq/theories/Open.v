(** Model of what looks up an encoding or opens a file: the constructors of [Decoder],
    [CharDecodeReader] and [MarkableReader] that take an encoding label (src/io/mod.rs),
    [lex::parse], [lex::parse_file] (src/lex/mod.rs) and [Syntax::read_from] (src/lib.rs). *)
From Coq Require Import String List NArith Arith Bool.
From Verif Require Import Base Tokenizer Ast Lex Syntax Io Decode Read.
Import ListNotations.
Open Scope nat_scope.

(** What a [CharDecodeReader] will still hand out, as the source behind a
    [MarkableReader] (Io.v): the characters it holds back, then one chunk for each
    fragment of the bytes (src/io/mod.rs:428-463). *)
Fixpoint dr_chunks (C : codec) (d : decoder C) (frags : list (list byte)) : list str :=
  match frags with
  | [] => []
  | f :: r => match dec_push C d f with (d', Ok s) => s :: dr_chunks C d' r | _ => [] end
  end.
Definition dr_source (C : codec) (r : decode_reader C) : source :=
  let chunks := dr_rest C r :: dr_chunks C (dr_dec C r) (bs_chunks (dr_bytes C r)) in
  Src chunks
    (match bs_err (dr_bytes C r) with
     | None => None
     | Some w => Some (Error_ (loc_push_str (dr_loc C r) (concat chunks)) (MIo w))
     end).

(** 307-352  A [MarkableReader] whose [r] is a [CharDecodeReader], and its [read_chars]
    with a buffer of length [n]; the same as [m_read_chars] (Io.v) with the decoding
    reader in the place of a source. *)
Record live (C : codec) := Live { lv_src : decode_reader C; lv_ub : ubuf }.
Definition lv_read_chars {C : codec} (debug : bool) (n : nat) (r : live C) : res str * live C :=
  if ub_remains (lv_ub C r) then
    let '(out, u) := ub_read n (lv_ub C r) in (Ok out, Live C (lv_src C r) u)
  else
    match dr_read C n (lv_src C r) with
    | (s, Ok []) => (Ok [], Live C s (lv_ub C r))
    | (s, Ok out) =>
        match ub_append debug out (lv_ub C r) with
        | Ok u => (Ok out, Live C s u)
        | Err e => (Err e, Live C s (lv_ub C r))
        | Panic p => (Panic p, Live C s (lv_ub C r))
        | OutOfFuel => (OutOfFuel, Live C s (lv_ub C r))
        end
    | (s, Err e) =>
        (Err (Error_ (ub_loc (lv_ub C r)) (MWrapped (e_loc e) (e_msg e))), Live C s (lv_ub C r))
    | (s, Panic p) => (Panic p, Live C s (lv_ub C r))
    | (s, OutOfFuel) => (OutOfFuel, Live C s (lv_ub C r))
    end.

Section World.
(** [encoding_rs::Encoding::for_label] followed by [new_decoder]; external. *)
Variable for_label : str -> option codec.
(** [std::fs::File::open]; external: the bytes that reading the file will give, or the
    text of the failure. *)
Variable open : str -> bytestream + str.

(** src/io/mod.rs:505-529  [Decoder::new]. *)
Definition decoder_new (name label : str) (stop : bool) : res {C : codec & decoder C} :=
  match for_label label with
  | Some C => Ok (existT _ C (dec_new C name label stop))
  | None => Err (Error_ (loc_new name) (MUnknownEncoding label))
  end.

(** 408-421  [CharDecodeReader::new]. *)
Definition decode_reader_new (name label : str) (b : bytestream) : res {C : codec & decode_reader C} :=
  let? d := decoder_new name label false in
  Ok (existT _ (projT1 d) (DR (projT1 d) b (projT2 d) [] (loc_new name))).

(** The buffer of [CharDecodeReader] (412), and a [Cursor] read through it. *)
Definition decode_buffer : nat := N.to_nat 1024.
Definition cursor_stream (bs : list byte) : bytestream :=
  BS (cursor_reads (length bs) decode_buffer bs) None.
(** 423-425  [CharDecodeReader::for_bytes]. *)
Definition decode_reader_for_bytes (name : str) (bs : list byte) (label : str) :=
  decode_reader_new name label (cursor_stream bs).

(** 327-329  [MarkableReader::with_encoding]; 331-333  [for_bytes]. *)
Definition with_encoding (name : str) (b : bytestream) (label : str) : res mreader :=
  let? r := decode_reader_new name label b in
  Ok (mr_new (loc_new name) (dr_source (projT1 r) (projT2 r))).
Definition for_bytes (name : str) (bs : list byte) (label : str) : res mreader :=
  with_encoding name (cursor_stream bs) label.

(** src/lex/mod.rs:53-81  [lex::parse].  The label is looked up before anything is
    read. *)
Definition parse_stream (name label : str) (max : N) (b : bytestream) : res (list rule) :=
  let? d := decoder_new name label false in
  lex_parse (projT1 d) name label max b.

(** 45-48  [lex::parse_file]. *)
Definition parse_file (name label : str) (max : N) : res (list rule) :=
  match open name with
  | inr why => Err (Error_ (loc_new name) (MIo why))
  | inl b => parse_stream name label max b
  end.

(** src/lib.rs:244-246  [Syntax::read_from]; 248-250  [read_from_utf8]; 252-255
    [read_from_str]. *)
Definition syntax_from (name label : str) (max : N) (b : bytestream) : res syntax :=
  let? rs := parse_stream name label max b in new_syntax rs.
Definition syntax_from_utf8 (name : str) (max : N) (b : bytestream) : res syntax :=
  syntax_from name (of_string "utf-8") max b.
Definition syntax_from_str (name s : str) (max : N) : res syntax :=
  syntax_from_utf8 name max (cursor_bytes (as_bytes s)).
End World.
