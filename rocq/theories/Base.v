(** Basic data of the model: characters, strings, locations, errors, results. *)
From Coq Require Import String Ascii List NArith Arith Bool.
Import ListNotations.

(** A Rust [char] is represented by its Unicode code point, a [String],
    [&str], [Vec<char>] or [&[char]] by the list of its characters. *)
Notation char := N (only parsing).
Notation str := (list N) (only parsing).

(** ASCII literals, used to write constants and examples only. *)
Fixpoint of_string (s : string) : str :=
  match s with
  | EmptyString => []
  | String a r => N_of_ascii a :: of_string r
  end.

Notation c_tab := 9%N.
Notation c_lf := 10%N.
Notation c_vt := 11%N.
Notation c_ff := 12%N.
Notation c_cr := 13%N.
Notation c_space := 32%N.
Notation c_excl := 33%N.
Notation c_dquote := 34%N.
Notation c_squote := 39%N.
Notation c_lpar := 40%N.
Notation c_rpar := 41%N.
Notation c_star := 42%N.
Notation c_comma := 44%N.
Notation c_minus := 45%N.
Notation c_dot := 46%N.
Notation c_slash := 47%N.
Notation c_colon := 58%N.
Notation c_semi := 59%N.
Notation c_eq := 61%N.
Notation c_quest := 63%N.
Notation c_lbrk := 91%N.
Notation c_rbrk := 93%N.
Notation c_lbrace := 123%N.
Notation c_bar := 124%N.
Notation c_rbrace := 125%N.

(** String equality ([==] on [String]). *)
Fixpoint str_eqb (a b : str) : bool :=
  match a, b with
  | [], [] => true
  | x :: a', y :: b' => N.eqb x y && str_eqb a' b'
  | _, _ => false
  end.

(** [String::cmp]: byte-wise order of UTF-8, which is the lexicographic order of
    the code points. *)
Fixpoint str_cmp (a b : str) : comparison :=
  match a, b with
  | [], [] => Eq
  | [], _ :: _ => Lt
  | _ :: _, [] => Gt
  | x :: a', y :: b' =>
      match N.compare x y with
      | Eq => str_cmp a' b'
      | c => c
      end
  end.

(** src/lib.rs:288-297  [struct Location].  Simplification: [u64] counters are
    unbounded (see Narrow.v and C80). *)
Record location := Loc { l_name : str; l_lines : N; l_columns : N }.

(** src/lib.rs:301-311  [Location::new], [Location::with_location]. *)
Definition loc_new (name : str) : location := Loc name 1 1.
Definition loc_with (name : str) (l c : N) : location := Loc name l c.

(** src/lib.rs:312-315  [Location::reset]. *)
Definition loc_reset (l : location) : location := Loc (l_name l) 1 1.

(** src/lib.rs:326-333  [Location::push]. *)
Definition loc_push (l : location) (c : char) : location :=
  if N.eqb c c_lf then Loc (l_name l) (l_lines l + 1) 1
  else Loc (l_name l) (l_lines l) (l_columns l + 1).

(** src/lib.rs:316-325  [Location::push_str], [Location::push_chars]. *)
Definition loc_push_str (l : location) (s : str) : location :=
  fold_left loc_push s l.

(** src/lib.rs:336-352  [impl Ord for Location]. *)
Definition loc_cmp (a b : location) : comparison :=
  if negb (str_eqb (l_name a) (l_name b)) then str_cmp (l_name a) (l_name b)
  else if N.ltb (l_lines a) (l_lines b) then Lt
  else if N.ltb (l_lines b) (l_lines a) then Gt
  else if N.ltb (l_columns a) (l_columns b) then Lt
  else if N.ltb (l_columns b) (l_columns a) then Gt
  else Eq.

(** src/lib.rs:287  [#[derive(PartialOrd)]] on [Location]: lexicographic on the
    fields in declaration order. *)
Definition loc_partial_cmp (a b : location) : option comparison :=
  match str_cmp (l_name a) (l_name b) with
  | Eq =>
      match N.compare (l_lines a) (l_lines b) with
      | Eq => Some (N.compare (l_columns a) (l_columns b))
      | c => Some c
      end
  | c => Some c
  end.

(** The [<] operator on locations, which goes through [partial_cmp]. *)
Definition loc_ltb (a b : location) : bool :=
  match loc_partial_cmp a b with Some Lt => true | _ => false end.

(** src/lib.rs:287  [#[derive(PartialEq)]] on [Location]. *)
Definition loc_eqb (a b : location) : bool :=
  str_eqb (l_name a) (l_name b)
  && N.eqb (l_lines a) (l_lines b) && N.eqb (l_columns a) (l_columns b).

(** The text found instead of what was expected
    (src/parser/machine.rs:159-171 [stream_prefix_to_string]): [EOF], or the
    next characters, [AText s true] standing for [s] followed by "...".
    Simplification: not rendered with [{:?}]. *)
Inductive actual := AEof | AText (s : str) (more : bool).

(** Error messages.  Simplification: one constructor per [format!], carrying its
    arguments, instead of the rendered text. *)
Inductive msg :=
(* src/lex/tokenizer/mod.rs *)
| MTooLong (have add max : N)                     (* 129-134 *)
| MAmbiguousComment                               (* 301-307 *)
| MColon                                          (* 336 *)
| MEndCommentNotOpened                            (* 341-344 *)
| MUndefinedChar (c : char)                       (* 368-374 *)
| MTermBadChar (c : char)                         (* 387-393 *)
| MTermNotClosed (q : char)                       (* 400-403 *)
| MTermEmpty                                      (* 408-411 *)
| MSpecBadChar (c : char)                         (* 427-433 *)
| MSpecNotClosed                                  (* 440-443 *)
| MCommentNotClosed                               (* 467-470 *)
| MCommentBadChar (c : char)                      (* 484-490 *)
(* src/lex/mod.rs *)
| MLoadFailed (why : str)                         (* 63-66 *)
| MMetaExpected (name : str)                      (* 342-345 *)
| MDefiningExpected (name : str)                  (* 348-354 *)
| MConcatExpected (name : str)                    (* 399-402 *)
| MRepetitionNumber (digits : str)                (* 434-440 *)
| MRepetitionExpected (name : str)                (* 445-448 *)
| MAmbiguousOption                                (* 478-481 *)
| MAmbiguousRepeat                                (* 497-500 *)
| MNotClosed (name : str) (sym : str)             (* 568-575 *)
(* src/validity/mod.rs *)
| MDuplicate (id : str) (lines columns : N)       (* 18-24 *)
| MUndefinedMeta (id : str)                       (* 48-51 *)
(* src/io/mod.rs *)
| MInvalidMark (mark : N) (stack : list (N * location))  (* 297-302 *)
| MWrapped (l : location) (m : msg)               (* 349: format!("{}", err) *)
| MIo (why : str)                                 (* 445 *)
| MUnknownEncoding (enc : str)                    (* 512-515 *)
| MGarbled (enc : str) (from to : location)       (* 595-601 *)
(* src/parser *)
| MRegexTooLong                                   (* mod.rs 234-240 *)
| MUser (why : str)                               (* errors of user scanners *)
| MLivelock                                       (* machine.rs 71-74 *)
| MExpected (expected : str) (a : actual)         (* machine.rs 151-157 *)
| MNoSuchForward (id sym : str) (def : location). (* machine.rs 241-247 *)

(** src/lib.rs:149-164  [struct Error], [Error::new]. *)
Record error := Error_ { e_loc : location; e_msg : msg }.

(** Every way the modelled code can panic. *)
Inductive panic :=
| PIndex          (* slice index out of bounds *)
| PAssert         (* assert!, assert_eq!, assert_ne! *)
| PUnwrap         (* unwrap / expect on None *)
| PUnderflow      (* arithmetic underflow *)
| PDebugAssert.   (* debug_assert!; debug builds only *)

(** [Result<A>], plus panics and the exhaustion of fuel of fuelled loops. *)
Inductive res (A : Type) :=
| Ok (a : A)
| Err (e : error)
| Panic (p : panic)
| OutOfFuel.
Arguments Ok {A} a.
Arguments Err {A} e.
Arguments Panic {A} p.
Arguments OutOfFuel {A}.

(** The [?] operator. *)
Definition bind {A B} (m : res A) (f : A -> res B) : res B :=
  match m with
  | Ok a => f a
  | Err e => Err e
  | Panic p => Panic p
  | OutOfFuel => OutOfFuel
  end.
Notation "'let?' x := m 'in' k" := (bind m (fun x => k))
  (at level 200, x pattern, m at level 100, k at level 200).

Definition is_ok {A} (m : res A) : bool :=
  match m with Ok _ => true | _ => false end.

(** src/lex/mod.rs:737-744  [is_gap_separator_char]. *)
Definition is_gap (c : char) : bool :=
  N.eqb c c_space || N.eqb c c_tab || N.eqb c c_cr || N.eqb c c_lf
  || N.eqb c c_vt || N.eqb c c_ff.
