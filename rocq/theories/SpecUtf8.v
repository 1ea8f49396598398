(** Specification of converters that report garbled input, and UTF-8 as an instance. *)
From Coq Require Import String List NArith Arith Bool.
From Verif Require Import Base Io Decode Read SpecDecode.
Import ListNotations.
Open Scope nat_scope.

(** Text in which the characters that replace garbled bytes are marked. *)
Definition marked := list (char * bool).
Definition plain (s : str) : marked := map (fun c => (c, false)) s.
Definition text_of (m : marked) : str := map fst m.
Definition has_mark (m : marked) : bool := existsb snd m.

(** As [incremental], with [D st bs] telling genuine characters from replacements: a call
    says whether it replaced something. *)
Record reporting (C : codec) (D : dc_state C -> list byte -> marked) : Prop := Reporting {
  rep_push : forall st bs empty read out garbled st',
    dc_call C st bs false = (empty, read, out, garbled, st') ->
    read <= length bs /\ (empty = true -> read = length bs) /\ (empty = false -> 0 < read) /\
    exists m, out = text_of m /\ garbled = has_mark m /\
      forall more, D st (bs ++ more) = m ++ D st' (skipn read bs ++ more);
  rep_last : forall st bs empty read out garbled st',
    dc_call C st bs true = (empty, read, out, garbled, st') ->
    read <= length bs /\ (empty = false -> 0 < read) /\
    exists m, out = text_of m /\ garbled = has_mark m /\
      D st bs = m ++ (if empty then [] else D st' (skipn read bs));
  rep_char : forall st bs c, In (c, true) (D st bs) -> c = 65533%N }.

(** A converter working byte by byte. *)
Record transducer := Transducer {
  td_state : Type;
  td_init : td_state;
  td_step : td_state -> byte -> td_state * marked;
  td_end : td_state -> marked }.
Fixpoint td_text (T : transducer) (st : td_state T) (bs : list byte) : marked :=
  match bs with
  | [] => td_end T st
  | b :: r => let '(st', o) := td_step T st b in o ++ td_text T st' r
  end.
(** One call: room for the output of [cap] bytes. *)
Fixpoint td_go (T : transducer) (cap : nat) (st : td_state T) (bs : list byte) (last : bool)
  : bool * nat * marked * td_state T :=
  match bs with
  | [] => if last then match cap, td_end T st with
                       | O, _ :: _ => (false, 0, [], st)
                       | _, o => (true, 0, o, st)
                       end
          else (true, 0, [], st)
  | b :: r =>
      match cap with
      | O => (false, 0, [], st)
      | S cap' =>
          let '(st', o) := td_step T st b in
          let '(e, n, o2, st2) := td_go T cap' st' r last in
          (e, S n, o ++ o2, st2)
      end
  end.
Definition codec_of (T : transducer) (cap : nat) : codec :=
  Codec (td_state T) (td_init T) (fun st bs last =>
    let '(e, n, o, st') := td_go T cap st bs last in (e, n, text_of o, has_mark o, st')).

(** The UTF-8 decoder of the WHATWG encoding standard (section 8.1.1): bytes still
    needed, the code point so far, and the range of the next byte; a byte order mark at
    the start of the stream is dropped. *)
Record utf8_state := U8 { u_start : bool; u_needed : nat; u_cp : N; u_low : N; u_high : N }.
Definition garbled_mark : char * bool := (65533%N, true).
(** A finished character. *)
Definition u_emit (start : bool) (c : char) : utf8_state * marked :=
  (U8 false 0 0 128 191, if start && N.eqb c 65279 then [] else [(c, false)]).
Definition u_first (start : bool) (b : byte) : utf8_state * marked :=
  (if b <=? 127 then u_emit start b
   else if (194 <=? b) && (b <=? 223) then (U8 start 1 (b - 192) 128 191, [])
   else if (224 <=? b) && (b <=? 239) then
     (U8 start 2 (b - 224) (if b =? 224 then 160 else 128) (if b =? 237 then 159 else 191), [])
   else if (240 <=? b) && (b <=? 244) then
     (U8 start 3 (b - 240) (if b =? 240 then 144 else 128) (if b =? 244 then 143 else 191), [])
   else (U8 false 0 0 128 191, [garbled_mark]))%N.
Definition u_step (st : utf8_state) (b : byte) : utf8_state * marked :=
  match u_needed st with
  | O => u_first (u_start st) b
  | S n =>
      if ((u_low st <=? b) && (b <=? u_high st))%N then
        let cp := (u_cp st * 64 + (b - 128))%N in
        match n with
        | O => u_emit (u_start st) cp
        | _ => (U8 (u_start st) n cp 128 191, [])
        end
      else let '(st', o) := u_first false b in (st', garbled_mark :: o)
  end.
Definition utf8 : transducer :=
  Transducer utf8_state (U8 true 0 0 128 191) u_step
    (fun st => match u_needed st with O => [] | _ => [garbled_mark] end).

(** Unicode scalar values: the values of Rust's [char]. *)
Definition scalar (c : char) : Prop := (c < 55296 \/ 57344 <= c < 1114112)%N.
(** Without a leading byte order mark. *)
Definition no_bom (s : str) : str :=
  match s with c :: r => if N.eqb c 65279 then r else s | [] => [] end.
(** A converter that decodes UTF-8: it reports garbled input, and the bytes of a text
    give the text. *)
Definition decodes_utf8 (C : codec) : Prop :=
  exists D, reporting C D /\
    forall s, Forall scalar s -> D (dc_init C) (as_bytes s) = plain (no_bom s).
