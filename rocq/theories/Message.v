(** The text of errors: [Display] of [Location] and [Error], and every [format!] behind a
    message of Base.v.

    [{:?}] of characters beyond ASCII is up to the tables of the Rust standard library:
    [plain c] says that such a character is written as it is. *)
From Coq Require Import String List NArith Arith Bool.
From Verif Require Import Base Ast.
Import ListNotations.
Open Scope N_scope.

(** Hexadecimal digits ([{:x}], [{:X}]): [ten] is the letter for ten. *)
Fixpoint hex_digits (ten : char) (fuel : nat) (n : N) (acc : str) : str :=
  match fuel with
  | O => acc
  | S f =>
      let d := n mod 16 in
      let acc' := (if d <? 10 then 48 + d else ten + (d - 10)) :: acc in
      if n <? 16 then acc' else hex_digits ten f (n / 16) acc'
  end.
Definition show_hex (ten : char) (n : N) : str := hex_digits ten (S (N.to_nat (N.log2 n))) n [].
(** [{:04X}] *)
Definition show_04X (n : N) : str := let s := show_hex 65 n in repeat 48 (4 - length s) ++ s.

Section Message.
Variable plain : char -> bool.

(** [char::escape_debug_ext] of the standard library, with the quote [q] escaped. *)
Definition escape (q c : char) : str :=
  if c =? 0 then [92; 48]
  else if c =? 9 then [92; 116]
  else if c =? 10 then [92; 110]
  else if c =? 13 then [92; 114]
  else if (c =? 92) || (c =? q) then [92; c]
  else if if c <? 128 then (32 <=? c) && (c <? 127) else plain c then [c]
  else [92; 117; 123] ++ show_hex 97 c ++ [125].
(** [{:?}] of [str] and [char]. *)
Definition debug_text (s : str) : str := [c_dquote] ++ flat_map (escape c_dquote) s ++ [c_dquote].
Definition debug_char (c : char) : str := [c_squote] ++ escape c_squote c ++ [c_squote].

(** src/lib.rs:364-368  [Display for Location]. *)
Definition show_location (l : location) : str :=
  l_name l ++ [c_lpar] ++ show_N (l_lines l) ++ [c_comma] ++ show_N (l_columns l) ++ [c_rpar].
(** src/lib.rs:287  [derive(Debug)] of [Location], in the tuples of src/io/mod.rs:213. *)
Definition debug_mark (m : N * location) : str :=
  of_string "(" ++ show_N (fst m) ++ of_string ", Location { name: " ++ debug_text (l_name (snd m))
  ++ of_string ", lines: " ++ show_N (l_lines (snd m)) ++ of_string ", columns: " ++ show_N (l_columns (snd m))
  ++ of_string " })".

(** src/parser/machine.rs:159-172  [stream_prefix_to_string]. *)
Definition show_actual (a : actual) : str :=
  match a with
  | AEof => of_string "EOF"
  | AText s more => debug_text (if more then s ++ of_string "..." else s)
  end.

(** The messages; the lines are given in Base.v. *)
Fixpoint render (m : msg) : str :=
  match m with
  | MTooLong have add max =>
      of_string "Token such as identifier, comment, or special sequence are too long: " ++ show_N have
      ++ of_string " + " ++ show_N add ++ of_string " > " ++ show_N max ++ of_string "."
  | MAmbiguousComment => of_string "An ambiguous start/end-command-symbol: (*)"
  | MColon => of_string "No colon ':' is allowed here."
  | MEndCommentNotOpened => of_string "end-comment-symbol '*)' is not opened."
  | MUndefinedChar c =>
      of_string "An undefined character was detected: " ++ debug_char c ++ of_string " (U+" ++ show_04X c ++ of_string ")"
  | MTermBadChar c => of_string "terminal-string contains a character " ++ debug_char c ++ of_string " that cannot be used."
  | MTermNotClosed q => of_string "terminal-string is not closed with " ++ debug_char q ++ of_string "."
  | MTermEmpty => of_string "The terminal-string must contain one or more terminal-characters."
  | MSpecBadChar c => of_string "special-sequence contains a character " ++ debug_char c ++ of_string " that cannot be used."
  | MSpecNotClosed => of_string "special-sequence is not closed with '?'."
  | MCommentNotClosed => of_string "This start-comment-symbol '(*' is not closed."
  | MCommentBadChar c =>
      of_string "This comment contains a character " ++ debug_char c ++ of_string " (U+" ++ show_04X c
      ++ of_string ") that cannot be used as a comment."
  | MLoadFailed why => of_string "Failed to load data: " ++ why
  | MMetaExpected name => of_string "meta-identifier expected, but " ++ name ++ of_string " appeared."
  | MDefiningExpected name => of_string "meta-identifier or defining-symbol '=' expected, but " ++ name ++ of_string " appeared."
  | MConcatExpected name =>
      of_string "concatenate-symbol ',', definition-separator-symbol '|', or terminator-symbol ';' expected, but "
      ++ name ++ of_string " appeared."
  (* An integer token consists of digits, so that [parse::<u32>] has one way to fail. *)
  | MRepetitionNumber digits =>
      of_string "cannot convert the number of repetitions " ++ debug_text digits
      ++ of_string " to 32-bit integer: number too large to fit in target type"
  | MRepetitionExpected name => of_string "repetition-symbol '*' expected, but " ++ name ++ of_string " appeared."
  | MAmbiguousOption => of_string "An ambiguous start/end-option-symbol: (/)"
  | MAmbiguousRepeat => of_string "An ambiguous start/end-repeat-symbol: (:)"
  | MNotClosed name sym => name ++ of_string " '" ++ sym ++ of_string "' is not closed."
  | MDuplicate id lines columns =>
      of_string "The meta-identifier " ++ id ++ of_string " is defined in (" ++ show_N lines ++ [c_comma] ++ show_N columns
      ++ of_string ")."
  | MUndefinedMeta id => of_string "meta-identifier " ++ debug_text id ++ of_string " is not defined."
  | MInvalidMark mark stack =>
      of_string "The specified mark " ++ show_N mark ++ of_string " is invalid: ["
      ++ sep_concat (of_string ", ") (map debug_mark stack) ++ of_string "]"
  | MWrapped l m => show_location l ++ [c_space] ++ render m
  | MIo why => why
  | MUnknownEncoding enc => of_string "Unable to recognize the specified character encoding: " ++ enc
  | MGarbled enc from to =>
      of_string "Detected a byte sequence that cannot be changed to " ++ enc ++ of_string ": between ("
      ++ show_N (l_lines from) ++ [c_comma] ++ show_N (l_columns from) ++ of_string ") and ("
      ++ show_N (l_lines to) ++ [c_comma] ++ show_N (l_columns to) ++ of_string ")."
  | MRegexTooLong =>
      of_string "Detect a match with more than 256 characters. Regular Expression matches are limited to 256 characters."
  | MUser why => why
  | MLivelock => of_string "Livelock: reading didn't proceed in repetation"
  | MExpected expected a =>
      of_string "Syntactic Error: " ++ expected ++ of_string " expected, but " ++ show_actual a ++ of_string " appeared."
  | MNoSuchForward id sym def =>
      of_string "The non-existent meta-identifier " ++ debug_text id ++ of_string " was directed by the special-sequence "
      ++ sym ++ of_string " defined in " ++ show_location def
  end.
(** src/lib.rs:168-172  [Display for Error]. *)
Definition show_error (e : error) : str := show_location (e_loc e) ++ [c_space] ++ render (e_msg e).
End Message.
