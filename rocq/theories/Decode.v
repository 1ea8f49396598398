(** Model of [Decoder] and [CharDecodeReader] (src/io/mod.rs) and of [lex::parse]
    (src/lex/mod.rs:53-81). *)
From Coq Require Import String List NArith Arith Bool.
From Verif Require Import Base Tokenizer Ast Lex Io.
Import ListNotations.

Open Scope nat_scope.

Definition byte := N.

(** The incremental converter of the encoding ([encoding_rs::Decoder]), an
    external library.  [dc_call state bytes last] is one call of
    [decode_to_string] with an output buffer of fixed capacity: the result is
    ([InputEmpty]?, bytes read, characters written, replacement happened?, new
    state). *)
Record codec := Codec {
  dc_state : Type;
  dc_init : dc_state;
  dc_call : dc_state -> list byte -> bool -> bool * nat * str * bool * dc_state }.

Section Decoder.
Variable C : codec.

(** src/io/mod.rs:483-489  [struct Decoder]. *)
Record decoder := Dec {
  d_enc : str;
  d_state : dc_state C;
  d_loc : location;
  d_stop : bool;
  d_buf : list byte }.

(** 505-529  [Decoder::new] for a known encoding label. *)
Definition dec_new (name enc : str) (stop : bool) : decoder :=
  Dec enc (dc_init C) (loc_new name) stop [].

(** 564-579  the loop of [convert], from [position] on: state, output, how many
    bytes were read in all, and whether the loop stopped for a garbled
    character.  At the test of line 576 [output_buffer] is always empty. *)
Fixpoint convert_loop (fuel : nat) (stop : bool) (st : dc_state C) (bs : list byte)
    (flush : bool) : res (dc_state C * str * nat * bool) :=
  match fuel with
  | O => OutOfFuel
  | S f =>
      let '(empty, read, out, garbled, st') := dc_call C st bs flush in
      if garbled && stop then Ok (st', out, read, true)
      else if empty || Nat.eqb read 0 then Ok (st', out, read, false)
      else
        let? (st2, out2, read2, g) := convert_loop f stop st' (skipn read bs) flush in
        Ok (st2, out ++ out2, (read + read2)%nat, g)
  end.

(** 587-602  [garbled_detected]. *)
Fixpoint position_of (c : char) (s : str) : nat :=
  match s with
  | [] => 0
  | x :: r => if N.eqb x c then 0 else S (position_of c r)
  end.
Definition replacement_char : char := 65533%N.
Definition garbled_detected (d : decoder) (st : dc_state C) (bytes : list byte) (output : str)
  : decoder * res str :=
  let position :=
    if existsb (N.eqb replacement_char) output then position_of replacement_char output
    else 0 in
  let from := d_loc d in
  let to_ := loc_push_str from output in
  let l := loc_push_str from (firstn (position + 1) output) in
  (Dec (d_enc d) st l (d_stop d) bytes, Err (Error_ l (MGarbled (d_enc d) from to_))).

(** 559-583  [convert]. *)
Definition convert (d : decoder) (bytes : list byte) (flush : bool) : decoder * res str :=
  let buf := d_buf d ++ bytes in
  match convert_loop (length buf + 2) (d_stop d) (d_state d) buf flush with
  | Ok (st, out, n, false) =>
      (Dec (d_enc d) st (loc_push_str (d_loc d) out) (d_stop d) (skipn n buf), Ok out)
  | Ok (st, out, _, true) => garbled_detected d st buf out
  | Err e => (d, Err e)
  | Panic p => (d, Panic p)
  | OutOfFuel => (d, OutOfFuel)
  end.

(** 542-544  [push]; 552-554  [flush]. *)
Definition dec_push (d : decoder) (bytes : list byte) := convert d bytes false.
Definition dec_flush (d : decoder) := convert d [] true.

(** A byte stream ([dyn Read]): the fragments handed out by successive successful
    reads (never empty: an empty read is the end of the file), then the end of
    the file or an error. *)
Record bytestream := BS { bs_chunks : list (list byte); bs_err : option str }.

(** 388-394  [struct CharDecodeReader].  The read buffer of 1024 bytes only bounds
    the fragments of the stream. *)
Record decode_reader := DR {
  dr_bytes : bytestream;
  dr_dec : decoder;
  dr_rest : str;
  dr_loc : location }.

(** 408-421  [CharDecodeReader::new]. *)
Definition dr_new (name enc : str) (b : bytestream) : decode_reader :=
  DR b (dec_new name enc false) [] (loc_new name).

(** 440-461  the loop of [read_chars]: reads fragments until some characters come
    out. *)
Fixpoint dr_fetch (chunks : list (list byte)) (err : option str) (d : decoder)
    (l : location) : list (list byte) * decoder * res str :=
  match chunks with
  | [] =>
      ([], d, match err with None => Ok [] | Some w => Err (Error_ l (MIo w)) end)
  | c :: r =>
      match dec_push d c with
      | (d', Ok []) => dr_fetch r err d' l
      | (d', x) => (r, d', x)
      end
  end.

(** 428-463  [CharDecodeReader::read_chars] with a buffer of length [n]. *)
Definition dr_read (n : nat) (r : decode_reader) : decode_reader * res str :=
  match dr_rest r with
  | _ :: _ =>
      let out := firstn n (dr_rest r) in
      (DR (dr_bytes r) (dr_dec r) (skipn n (dr_rest r)) (loc_push_str (dr_loc r) out), Ok out)
  | [] =>
      match dr_fetch (bs_chunks (dr_bytes r)) (bs_err (dr_bytes r)) (dr_dec r) (dr_loc r) with
      | (cs, d, Ok chars) =>
          let out := firstn n chars in
          (DR (BS cs (bs_err (dr_bytes r))) d (skipn n chars) (loc_push_str (dr_loc r) out),
           Ok out)
      | (cs, d, Err e) => (DR (BS cs (bs_err (dr_bytes r))) d [] (dr_loc r), Err e)
      | (cs, d, Panic p) => (DR (BS cs (bs_err (dr_bytes r))) d [] (dr_loc r), Panic p)
      | (cs, d, OutOfFuel) => (DR (BS cs (bs_err (dr_bytes r))) d [] (dr_loc r), OutOfFuel)
      end
  end.

(** src/lex/mod.rs:58-71  the loop of [lex::parse]. *)
Fixpoint parse_loop (chunks : list (list byte)) (err : option str) (d : decoder) (lx : lexer)
  : res (decoder * lexer * list rule) :=
  match chunks with
  | [] =>
      match err with
      | None => Ok (d, lx, [])
      | Some w => Err (Error_ (tk_loc (lx_tk lx)) (MLoadFailed w))
      end
  | c :: r =>
      let '(d, x) := dec_push d c in
      let? input := x in
      let '(lx, y) := lx_push_str lx input in
      let? rs := y in
      let? (d, lx, rs2) := parse_loop r err d lx in
      Ok (d, lx, rs ++ rs2)
  end.

(** 53-81  [lex::parse] for a known encoding label.  The read buffer of 4096 bytes
    only bounds the fragments of the stream. *)
Definition lex_parse (name enc : str) (max : N) (b : bytestream) : res (list rule) :=
  let? (d, lx, rs) :=
    parse_loop (bs_chunks b) (bs_err b) (dec_new name enc false) (lx_new name max) in
  let '(_, x) := dec_flush d in
  let? input := x in
  let '(lx, y) := lx_push_str lx input in
  let? rs2 := y in
  let '(_, z) := lx_flush lx in
  let? o := z in
  Ok (rs ++ rs2 ++ opt_list o).

End Decoder.
