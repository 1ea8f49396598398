(** Specification of an incremental converter, and an instance of it. *)
From Coq Require Import String List NArith Arith Bool.
From Verif Require Import Base Io Decode.
Import ListNotations.
Open Scope nat_scope.

(** What is assumed of the converter of an encoding ([encoding_rs::Decoder]), with
    [D st bs] the text that the bytes [bs] and the end of the stream still give in
    state [st]: a call converts a prefix of the bytes, and reads at least one byte
    when it stops because its output buffer is full. *)
Record incremental (C : codec) (D : dc_state C -> list byte -> str) : Prop := Incremental {
  inc_push : forall st bs empty read out garbled st',
    dc_call C st bs false = (empty, read, out, garbled, st') ->
    read <= length bs /\ (empty = true -> read = length bs) /\ (empty = false -> 0 < read) /\
    forall more, D st (bs ++ more) = out ++ D st' (skipn read bs ++ more);
  inc_last : forall st bs empty read out garbled st',
    dc_call C st bs true = (empty, read, out, garbled, st') ->
    read <= length bs /\ (empty = false -> 0 < read) /\
    D st bs = out ++ (if empty then [] else D st' (skipn read bs)) }.

(** Pushing the fragments one after the other. *)
Fixpoint pushes {C} (d : decoder C) (frags : list (list byte)) : decoder C * res str :=
  match frags with
  | [] => (d, Ok [])
  | f :: r =>
      match dec_push C d f with
      | (d', Ok s) => let '(d2, x) := pushes d' r in (d2, let? s2 := x in Ok (s ++ s2))
      | x => x
      end
  end.
(** ... and then flushing. *)
Definition decode_all {C} (d : decoder C) (frags : list (list byte)) : res str :=
  let '(d', x) := pushes d frags in
  let? s := x in
  let? s2 := snd (dec_flush C d') in
  Ok (s ++ s2).

(** Reading a [CharDecodeReader] with buffers of the given sizes. *)
Fixpoint dr_reads {C} (sizes : list nat) (r : decode_reader C) : decode_reader C * list (res str) :=
  match sizes with
  | [] => (r, [])
  | n :: ns =>
      let '(r1, x) := dr_read C n r in
      let '(r2, xs) := dr_reads ns r1 in
      (r2, x :: xs)
  end.

(** An instance: two bytes for a character, high byte first, at most two characters
    for a call, a lonely last byte is replaced. *)
Fixpoint wide_text (st : option byte) (bs : list byte) : str :=
  match bs with
  | [] => match st with None => [] | Some _ => [replacement_char] end
  | b :: r =>
      match st with
      | None => wide_text (Some b) r
      | Some a => (256 * a + b)%N :: wide_text None r
      end
  end.
Fixpoint wide_go (cap : nat) (st : option byte) (bs : list byte) (last : bool)
  : bool * nat * str * bool * option byte :=
  match bs with
  | [] =>
      if last then
        match st, cap with
        | None, _ => (true, 0, [], false, None)
        | Some a, O => (false, 0, [], false, Some a)
        | Some _, S _ => (true, 0, [replacement_char], true, None)
        end
      else (true, 0, [], false, st)
  | b :: r =>
      match st with
      | None => let '(e, n, o, g, s) := wide_go cap (Some b) r last in (e, S n, o, g, s)
      | Some a =>
          match cap with
          | O => (false, 0, [], false, Some a)
          | S cap' =>
              let '(e, n, o, g, s) := wide_go cap' None r last in
              (e, S n, (256 * a + b)%N :: o, g, s)
          end
      end
  end.
Definition wide : codec := Codec (option byte) None (wide_go 2).
