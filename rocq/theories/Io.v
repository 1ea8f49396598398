(** Model of src/io/mod.rs: character sources, [UnreadBuffer], [MarkableReader]. *)
From Coq Require Import String List NArith Arith Bool.
From Verif Require Import Base.
Import ListNotations.

(** The character source behind a [MarkableReader] ([Box<dyn CharReader>]): the
    chunks it will hand out and how it ends ([None]: end of file, [Some e]: every
    further read fails with [e]).
    [BufferedCharReader] (58-76) is the source with one chunk and no failure;
    a [CharDecodeReader] (388-463) hands out one chunk per non-empty decoder
    output (see Decode.v). *)
Record source := Src { s_chunks : list str; s_end : option error }.

(** 68-76 / 428-463  [read_chars] of the source with a buffer of length [n]: the
    characters delivered and the rest of the source.  Empty chunks are the rounds of
    the loop of 440-461 that decode nothing. *)
Fixpoint src_chunks (cs : list str) : list str :=
  match cs with
  | [] :: r => src_chunks r
  | _ => cs
  end.
Definition src_read (n : nat) (s : source) : res str * source :=
  match src_chunks (s_chunks s) with
  | [] => (match s_end s with None => Ok [] | Some e => Err e end, Src [] (s_end s))
  | c :: r => (Ok (firstn n c), Src (skipn n c :: r) (s_end s))
  end.

(** 205-214  [struct UnreadBuffer].  The stack is kept with its top first. *)
Record ubuf := UB {
  ub_loc : location;
  ub_buf : str;
  ub_next : nat;
  ub_head : N;
  ub_stack : list (N * location) }.

(** 307-310  [struct MarkableReader]. *)
Record mreader := MR { mr_src : source; mr_ub : ubuf }.

(** 313-325  [MarkableReader::new] is [mr_new (loc_new name) src];
    [MarkableReader::with_location]; 218-226 [UnreadBuffer::new]. *)
Definition mr_new (l : location) (s : source) : mreader := MR s (UB l [] 0 0 []).

(** 58-66, 84-90  a [MarkableReader] over a [BufferedCharReader]. *)
Definition mr_of_text (l : location) (t : str) : mreader := mr_new l (Src [t] None).

(** 230-232  [remains]. *)
Definition ub_remains (u : ubuf) : bool := Nat.ltb (ub_next u) (length (ub_buf u)).

(** 291-296  [truncate_buffer_if_stack_empty].  Note that the head position is not
    moved. *)
Definition ub_truncate (u : ubuf) : ubuf :=
  match ub_stack u with
  | [] => UB (ub_loc u) [] 0 (ub_head u) []
  | _ => u
  end.

(** 233-244  [UnreadBuffer::read] with a buffer of length [n]. *)
Definition ub_read (n : nat) (u : ubuf) : str * ubuf :=
  let out := firstn n (skipn (ub_next u) (ub_buf u)) in
  let u1 := UB (ub_loc u) (ub_buf u) (ub_next u + length out) (ub_head u) (ub_stack u) in
  let u2 := if ub_remains u1 then u1 else ub_truncate u1 in
  (out, UB (loc_push_str (ub_loc u2) out) (ub_buf u2) (ub_next u2) (ub_head u2) (ub_stack u2)).

Section Debug.
(** [true] for a debug build (debug assertions enabled). *)
Variable debug : bool.

(** 245-256  [append]. *)
Definition ub_append (s : str) (u : ubuf) : res ubuf :=
  match ub_stack u with
  | _ :: _ =>
      if debug && ub_remains u then Panic PDebugAssert
      else Ok (UB (loc_push_str (ub_loc u) s) (ub_buf u ++ s) (ub_next u + length s)
                  (ub_head u) (ub_stack u))
  | [] =>
      if debug && negb (match ub_buf u with [] => true | _ => false end
                        && Nat.eqb (ub_next u) 0)
      then Panic PDebugAssert
      else Ok (UB (loc_push_str (ub_loc u) s) (ub_buf u) (ub_next u)
                  (ub_head u + N.of_nat (length s)) [])
  end.

(** 257-262  [mark]. *)
Definition ub_position (u : ubuf) : N := (ub_head u + N.of_nat (ub_next u))%N.
Definition ub_mark (u : ubuf) : res (N * ubuf) :=
  let position := ub_position u in
  if debug && negb (match ub_stack u with
                    | (p, _) :: _ => N.leb p position
                    | [] => true
                    end)
  then Panic PDebugAssert
  else Ok (position,
           UB (ub_loc u) (ub_buf u) (ub_next u) (ub_head u)
              ((position, ub_loc u) :: ub_stack u)).

(** 280-288  the loop of [remove_mark] (from the top of the stack down): the
    location found and the stack below it. *)
Fixpoint find_mark (mark : N) (stack : list (N * location))
  : option (location * list (N * location)) :=
  match stack with
  | [] => None
  | (p, l) :: below =>
      if N.eqb p mark then Some (l, below)
      else if N.ltb p mark then None
      else find_mark mark below
  end.

(** 297-302  [err_invalid_mark]. *)
Definition err_invalid_mark (mark : N) (u : ubuf) : error :=
  Error_ (ub_loc u) (MInvalidMark mark (rev (ub_stack u))).

(** 274-290  [remove_mark]. *)
Definition ub_remove_mark (mark : N) (u : ubuf) : res (location * ubuf) :=
  if N.ltb mark (ub_head u)
     || N.ltb (ub_head u + N.of_nat (length (ub_buf u))) mark
  then Err (err_invalid_mark mark u)
  else
    match find_mark mark (ub_stack u) with
    | Some (l, below) => Ok (l, UB (ub_loc u) (ub_buf u) (ub_next u) (ub_head u) below)
    | None => Err (err_invalid_mark mark u)
    end.

(** 263-268  [revert].  The subtractions are unsigned. *)
Definition ub_revert (mark : N) (u : ubuf) : res (nat * ubuf) :=
  let? (l, u) := ub_remove_mark mark u in
  let old := ub_position u in
  if N.ltb mark (ub_head u) || N.ltb old mark then Panic PUnderflow
  else Ok (N.to_nat (old - mark),
           UB l (ub_buf u) (N.to_nat (mark - ub_head u)) (ub_head u) (ub_stack u)).

(** Operations on a reader: result and new state. *)
Definition M (A : Type) := mreader -> res A * mreader.
Definition ret {A} (a : A) : M A := fun r => (Ok a, r).
Definition fail {A} (e : error) : M A := fun r => (Err e, r).
Definition crash {A} (p : panic) : M A := fun r => (Panic p, r).
Definition no_fuel {A} : M A := fun r => (OutOfFuel, r).
Definition mbind {A B} (m : M A) (f : A -> M B) : M B := fun r =>
  match m r with
  | (Ok a, r') => f a r'
  | (Err e, r') => (Err e, r')
  | (Panic p, r') => (Panic p, r')
  | (OutOfFuel, r') => (OutOfFuel, r')
  end.
Notation "'let!' x := m 'in' k" := (mbind m (fun x => k))
  (at level 200, x pattern, m at level 100, k at level 200).

Definition with_ub {A} (f : ubuf -> res (A * ubuf)) : M A := fun r =>
  match f (mr_ub r) with
  | Ok (a, u) => (Ok a, MR (mr_src r) u)
  | Err e => (Err e, r)
  | Panic p => (Panic p, r)
  | OutOfFuel => (OutOfFuel, r)
  end.

(** 337-351  [MarkableReader::read_chars] with a buffer of length [n]: the
    characters read. *)
Definition m_read_chars (n : nat) : M str := fun r =>
  if ub_remains (mr_ub r) then
    let '(out, u) := ub_read n (mr_ub r) in (Ok out, MR (mr_src r) u)
  else
    match src_read n (mr_src r) with
    | (Ok [], s) => (Ok [], MR s (mr_ub r))
    | (Ok out, s) =>
        match ub_append out (mr_ub r) with
        | Ok u => (Ok out, MR s u)
        | Err e => (Err e, MR s (mr_ub r))
        | Panic p => (Panic p, MR s (mr_ub r))
        | OutOfFuel => (OutOfFuel, MR s (mr_ub r))
        end
    | (Err e, s) =>
        (Err (Error_ (ub_loc (mr_ub r)) (MWrapped (e_loc e) (e_msg e))), MR s (mr_ub r))
    | (Panic p, s) => (Panic p, MR s (mr_ub r))
    | (OutOfFuel, s) => (OutOfFuel, MR s (mr_ub r))
    end.

(** 355-369  [location], [mark], [reset_to_mark], [unmark]. *)
Definition m_location : M location := fun r => (Ok (ub_loc (mr_ub r)), r).
Definition m_mark : M N := with_ub ub_mark.
Definition m_reset (mark : N) : M nat := with_ub (ub_revert mark).
Definition m_unmark (mark : N) : M unit :=
  with_ub (fun u => let? (_, u') := ub_remove_mark mark u in Ok (tt, u')).

(** 21-29  [CharReader::read]. *)
Definition m_read : M (option char) :=
  let! out := m_read_chars 1 in
  ret (hd_error out).

(** The size of the local buffers of [read_all] (45) and [skip] (165). *)
Definition io_buffer : nat := 1024.

(** 44-55  [CharReader::read_all]; [fuel] bounds the number of rounds. *)
Fixpoint m_read_all (fuel : nat) : M str :=
  match fuel with
  | O => no_fuel
  | S f =>
      let! out := m_read_chars io_buffer in
      match out with
      | [] => ret []
      | _ => let! rest := m_read_all f in ret (out ++ rest)
      end
  end.

(** 97-102  [is_eof]. *)
Definition m_is_eof : M bool :=
  let! mark := m_mark in
  let! ch := m_read in
  let! _ := m_reset mark in
  ret (match ch with None => true | Some _ => false end).

(** 117-123  the loop of [prefix_matches]. *)
Fixpoint m_prefix_loop (prefix : str) : M bool :=
  match prefix with
  | [] => ret true
  | p :: rest =>
      let! ch := m_read in
      match ch with
      | Some c => if N.eqb c p then m_prefix_loop rest else ret false
      | None => ret false
      end
  end.

(** 115-126  [prefix_matches]. *)
Definition m_prefix_matches (prefix : str) : M bool :=
  let! mark := m_mark in
  let! b := m_prefix_loop prefix in
  let! _ := m_reset mark in
  ret b.

(** 144-149  the loop of [peek]. *)
Fixpoint m_peek_loop (n : nat) : M str :=
  match n with
  | O => ret []
  | S n' =>
      let! ch := m_read in
      match ch with
      | Some c => let! rest := m_peek_loop n' in ret (c :: rest)
      | None => ret []
      end
  end.

(** 141-152  [peek]. *)
Definition m_peek (n : nat) : M str :=
  let! mark := m_mark in
  let! s := m_peek_loop n in
  let! _ := m_reset mark in
  ret s.

(** 166-173  the loop of [skip]: what is left to skip.  Every round that continues
    skips at least one character, so [length + 1] rounds are enough. *)
Fixpoint m_skip_loop (fuel remaining : nat) : M nat :=
  match fuel with
  | O => no_fuel
  | S f =>
      match remaining with
      | O => ret 0
      | _ =>
          let! out := m_read_chars (Nat.min remaining io_buffer) in
          match out with
          | [] => ret remaining
          | _ => m_skip_loop f (remaining - length out)
          end
      end
  end.

(** 163-175  [skip]. *)
Definition m_skip (n : nat) : M nat :=
  let! remaining := m_skip_loop (S n) n in
  ret (n - remaining).

End Debug.

Notation "'let!' x := m 'in' k" := (mbind m (fun x => k))
  (at level 200, x pattern, m at level 100, k at level 200).
