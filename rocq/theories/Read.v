(** Model of [Syntax::read_from], [read_from_utf8] and [read_from_str]
    (src/lib.rs:244-255). *)
From Coq Require Import String List NArith Arith Bool.
From Verif Require Import Base Tokenizer Ast Lex Syntax Io Decode.
Import ListNotations.
Open Scope nat_scope.

(** The UTF-8 form of a character ([str::as_bytes]). *)
Definition utf8_char (c : char) : list byte :=
  (if c <? 128 then [c]
   else if c <? 2048 then [192 + c / 64; 128 + c mod 64]
   else if c <? 65536 then [224 + c / 4096; 128 + c / 64 mod 64; 128 + c mod 64]
   else [240 + c / 262144; 128 + c / 4096 mod 64; 128 + c / 64 mod 64; 128 + c mod 64])%N.
Definition as_bytes (s : str) : list byte := flat_map utf8_char s.

(** The reads of a [std::io::Cursor] with a buffer of [n] bytes. *)
Fixpoint cursor_reads (fuel n : nat) (bs : list byte) : list (list byte) :=
  match fuel with
  | O => []
  | S f => match bs with
           | [] => []
           | _ => firstn n bs :: cursor_reads f n (skipn n bs)
           end
  end.
(** The buffer of [lex::parse] (src/lex/mod.rs:57). *)
Definition parse_buffer : nat := N.to_nat 4096.
Definition cursor_bytes (bs : list byte) : bytestream :=
  BS (cursor_reads (length bs) parse_buffer bs) None.

(** 244-246  [read_from] for a known encoding label. *)
Definition read_from (C : codec) (name enc : str) (max : N) (b : bytestream) : res syntax :=
  let? rs := lex_parse C name enc max b in new_syntax rs.
(** 248-250  [read_from_utf8]; [C] is the converter for "utf-8". *)
Definition read_from_utf8 (C : codec) (name : str) (max : N) (b : bytestream) : res syntax :=
  read_from C name (of_string "utf-8") max b.
(** 252-255  [read_from_str]. *)
Definition read_from_str (C : codec) (name : str) (s : str) (max : N) : res syntax :=
  read_from_utf8 C name max (cursor_bytes (as_bytes s)).
