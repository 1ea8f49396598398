(** What is asked of converters that feed a parser, and the calls on a reader. *)
From Coq Require Import String List NArith Arith Bool.
From Verif Require Import Base Io Decode Read Open SpecText SpecDecode SpecUtf8.
Import ListNotations.
Open Scope nat_scope.

(** A converter that holds back no finished character: once it has taken all bytes, the
    end of the stream can add nothing but replacements for unfinished ones. *)
Definition prompt (C : codec) (D : dc_state C -> list byte -> marked) : Prop :=
  forall st bs read out garbled st', dc_call C st bs false = (true, read, out, garbled, st') ->
  Forall (fun x => snd x = true) (D st' []).
(** A converter for UTF-8 ([decodes_utf8], SpecUtf8.v) that is prompt. *)
Definition streams_utf8 (C : codec) : Prop :=
  exists D, reporting C D /\ prompt C D /\
    forall s, Forall scalar s -> D (dc_init C) (as_bytes s) = plain (no_bom s).

(** The calls a [MarkableReader] answers itself; the other methods of its traits are
    made of these. *)
Inductive call := CRead (n : nat) | CMark | CReset (m : N) | CUnmark (m : N) | CWhere.
Inductive reply := RText (x : res str) | RId (x : res N) | RCount (x : res nat) | RDone (x : res unit) | RWhere (x : res location).
(** A call on the buffer alone. *)
Definition on_buffer (debug : bool) (c : call) (u : ubuf) : option (reply * ubuf) :=
  let go {A} (f : res A -> reply) (x : res (A * ubuf)) :=
    Some (match x with
     | Ok (a, u') => (f (Ok a), u')
     | Err e => (f (Err e), u)
     | Panic p => (f (Panic p), u)
     | OutOfFuel => (f OutOfFuel, u)
     end) in
  match c with
  | CRead _ => None
  | CMark => go RId (ub_mark debug u)
  | CReset m => go RCount (ub_revert m u)
  | CUnmark m => go RDone (let? (_, u') := ub_remove_mark m u in Ok (tt, u'))
  | CWhere => Some (RWhere (Ok (ub_loc u)), u)
  end.
(** The replies of a reader over a source of chunks (Io.v) ... *)
Fixpoint replies (debug : bool) (cs : list call) (r : mreader) : list reply :=
  match cs with
  | [] => []
  | c :: cs =>
      let go {A} (f : res A -> reply) (m : M A) := let '(x, r') := m r in f x :: replies debug cs r' in
      match c with
      | CRead n => go RText (m_read_chars debug n)
      | CMark => go RId (m_mark debug)
      | CReset m => go RCount (m_reset m)
      | CUnmark m => go RDone (m_unmark m)
      | CWhere => go RWhere m_location
      end
  end.
(** ... and of one over bytes that are decoded as they are needed. *)
Fixpoint live_replies {C : codec} (debug : bool) (cs : list call) (r : live C) : list reply :=
  match cs with
  | [] => []
  | c :: cs =>
      match c, on_buffer debug c (lv_ub C r) with
      | CRead n, _ => let '(x, r') := lv_read_chars debug n r in RText x :: live_replies debug cs r'
      | _, Some (a, u) => a :: live_replies debug cs (Live C (lv_src C r) u)
      | _, None => []
      end
  end.
