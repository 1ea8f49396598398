(** Model of the constructors of scanners (src/parser/mod.rs) and of the example in the
    documentation of the crate (src/lib.rs). *)
From Coq Require Import String List NArith Arith Bool.
From Verif Require Import Base Ident Tokenizer Ast Lex Syntax Graph.
Import ListNotations.
Open Scope N_scope.

(** src/parser/mod.rs:148-150  [CharsScanner::new]. *)
Definition chars_new (pred : char -> bool) (min max : option N) : scanner := ScChars pred min max.
(** 166-168  [with_range]. *)
Definition chars_with_range (pred : char -> bool) (min max : N) : scanner := chars_new pred (Some min) (Some max).
(** 163-165  [with_max]. *)
Definition chars_with_max (pred : char -> bool) (max : N) : scanner := chars_new pred None (Some max).
(** 160-162  [with_min]. *)
Definition chars_with_min (pred : char -> bool) (min : N) : scanner := chars_new pred (Some min) None.
(** 157-159  [with_zero_or_more]. *)
Definition chars_zero_or_more (pred : char -> bool) : scanner := chars_new pred None None.
(** 154-156  [with_one_or_more]. *)
Definition chars_one_or_more (pred : char -> bool) : scanner := chars_with_min pred 1.
(** 151-153  [with_one_of]. *)
Definition chars_one_of (pred : char -> bool) : scanner := chars_with_range pred 1 1.

(** src/parser/mod.rs:211-213  [RegExScanner::new], of an expression and what is found with it. *)
Definition regex_new (re : str) (find : str -> option (nat * nat)) : scanner := ScRegex re find.
(** 214-219  [RegExScanner::from_str].  [engine] is [Regex::new] of the regex crate: what is found
    with the expression, or the text of its complaint.  (The message is a text like that of an
    error of the user's, [MUser].) *)
Definition regex_from_str (engine : str -> (str -> option (nat * nat)) + str) (definition : location) (re : str) : res scanner :=
  match engine re with
  | inl find => Ok (regex_new re find)
  | inr err => Err (Error_ definition (MUser (of_string "Malformed regular expression: " ++ err)%list))
  end.

(** [char::is_ascii_control] of the Rust library. *)
Definition is_ascii_control (c : char) : bool := (c <? 32) || (c =? 127).

(** src/lib.rs:16-35  The grammar of the example. *)
Definition example_grammar : str := of_string "(* a simple program syntax in EBNF - Wikipedia *)
program = 'PROGRAM', white space, identifier, white space,
 'BEGIN', white space,
 { assignment, "";"", white space },
 'END.' ;
identifier = alphabetic character, { alphabetic character | digit } ;
number = [ ""-"" ], digit, { digit } ;
string = '""' , { all characters - '""' }, '""' ;
assignment = identifier , "":="" , ( number | identifier | string ) ;
alphabetic character = ""A"" | ""B"" | ""C"" | ""D"" | ""E"" | ""F"" | ""G""
           | ""H"" | ""I"" | ""J"" | ""K"" | ""L"" | ""M"" | ""N""
           | ""O"" | ""P"" | ""Q"" | ""R"" | ""S"" | ""T"" | ""U""
           | ""V"" | ""W"" | ""X"" | ""Y"" | ""Z"" ;
digit = ""0"" | ""1"" | ""2"" | ""3"" | ""4"" | ""5"" | ""6"" | ""7"" | ""8"" | ""9"" ;
white space = ? white space characters ? ;
all characters = ? all visible characters ? ;".

(** src/lib.rs:38-52  Its scanners.  For other labels the example panics while the graph is
    compiled; the model gives them the default scanner (the grammar has no other labels). *)
Definition example_config : config := fun _ label =>
  if str_eqb (trim label) (of_string "white space characters")
  then chars_one_or_more (fun c => is_rust_whitespace c || is_ascii_control c)
  else if str_eqb (trim label) (of_string "all visible characters")
  then chars_one_of (fun c => negb (is_ascii_control c))
  else ScDefault label.
