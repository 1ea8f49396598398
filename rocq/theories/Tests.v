(** Validation of the model: the unit tests of the repository, transcribed, run
    on the model.  (These are tests, not properties.) *)
From Coq Require Import String List NArith Arith Bool.
From Verif Require Import Base Ident Tokenizer Ast Lex Syntax Io Graph Machine Decode Message.
Import ListNotations.
Open Scope N_scope.

Definition dl (l c : N) : location := Loc (of_string "definition.ebnf") l c.
Definition sl (l c : N) : location := Loc (of_string "target.txt") l c.

Definition parse_with (cfg : config) (ebnf id text : str) : res (list event) :=
  let? rules := parse_str (of_string "definition.ebnf") ebnf in
  let? sy := new_syntax rules in
  let? g := compile cfg sy in
  let? o := machine_new g id in
  match o with
  | None => Panic PUnwrap
  | Some m =>
      if str_eqb (mc_id m) id
      then fst (parser_parse true g 3000 m (mr_of_text (sl 1 1) text))
      else Panic PAssert
  end.
Definition parse_text := parse_with default_config.

Definition parse_err_at (s : str) (l c : N) : bool :=
  match parse_str [] s with
  | Err e => (l_lines (e_loc e) =? l) && (l_columns (e_loc e) =? c)
  | _ => false
  end.

Fixpoint chunks_of (n fuel : nat) (s : str) : list str :=
  match fuel, s with
  | S f, _ :: _ => firstn n s :: chunks_of n f (skipn n s)
  | _, _ => []
  end.
Fixpoint tk_push_all (t : tokenizer) (cs : list str) : res (list token) :=
  match cs with
  | [] => snd (tk_flush t)
  | c :: r =>
      let '(t, x) := tk_push_str t c in
      let? ts := x in
      let? ts2 := tk_push_all t r in Ok (ts ++ ts2)
  end.
Definition token_eq_dec (a b : token) : {a = b} + {a <> b}.
Proof. repeat decide equality. Defined.
Definition tokens_in_every_split (s : str) (ts : list token) : bool :=
  forallb (fun n =>
    match tk_push_all (tk_new (of_string "definition.ebnf") 0) (chunks_of n (length s) s) with
    | Ok ts' => if list_eq_dec token_eq_dec ts ts' then true else false
    | _ => false
    end) (seq 1 (length s)).

Example parser_terminal_string_1 :
  parse_text (of_string "A = 'a'; B = 'b'; XYZ = 'xyz'; e = ;") (of_string "A") (of_string "a")
  = Ok [EvBegin (dl 1 1) (sl 1 1) (of_string "A");
        EvToken (dl 1 5) (sl 1 1) (of_string "a");
        EvEnd (dl 1 1) (sl 1 2) (of_string "A")].
Proof. vm_compute. reflexivity. Qed.

Example parser_terminal_string_2 :
  parse_text (of_string "A = 'a'; B = 'b'; XYZ = 'xyz'; e = ;") (of_string "B") (of_string "b")
  = Ok [EvBegin (dl 1 10) (sl 1 1) (of_string "B");
        EvToken (dl 1 14) (sl 1 1) (of_string "b");
        EvEnd (dl 1 10) (sl 1 2) (of_string "B")].
Proof. vm_compute. reflexivity. Qed.

Example parser_terminal_string_3 :
  parse_text (of_string "A = 'a'; B = 'b'; XYZ = 'xyz'; e = ;") (of_string "XYZ") (of_string "xyz")
  = Ok [EvBegin (dl 1 19) (sl 1 1) (of_string "XYZ");
        EvToken (dl 1 25) (sl 1 1) (of_string "xyz");
        EvEnd (dl 1 19) (sl 1 4) (of_string "XYZ")].
Proof. vm_compute. reflexivity. Qed.

Example parser_terminal_string_4 :
  parse_text (of_string "A = 'a'; B = 'b'; XYZ = 'xyz'; e = ;") (of_string "e") (of_string "")
  = Ok [EvBegin (dl 1 32) (sl 1 1) (of_string "e");
        EvEnd (dl 1 32) (sl 1 1) (of_string "e")].
Proof. vm_compute. reflexivity. Qed.

Example parser_terminal_string_5 :
  parse_text (of_string "A = 'a'; B = 'b'; XYZ = 'xyz'; e = ;") (of_string "XYZ") (of_string "d")
  = Err (Error_ (sl 1 1) (MExpected (parallel_notation [(of_string """xyz""")] (of_string "or")) (AText (of_string "d") false))).
Proof. vm_compute. reflexivity. Qed.

Example parser_terminal_string_6 :
  parse_text (of_string "A = 'a'; B = 'b'; XYZ = 'xyz'; e = ;") (of_string "XYZ") (of_string "")
  = Err (Error_ (sl 1 1) (MExpected (parallel_notation [(of_string """xyz""")] (of_string "or")) AEof)).
Proof. vm_compute. reflexivity. Qed.

Example parser_definition_list_1 :
  parse_text (of_string "A = 'a'; B = 'b'; C = 'c'; ABC = A | B | C;") (of_string "ABC") (of_string "a")
  = Ok [EvBegin (dl 1 28) (sl 1 1) (of_string "ABC");
        EvBegin (dl 1 34) (sl 1 1) (of_string "A");
        EvToken (dl 1 5) (sl 1 1) (of_string "a");
        EvEnd (dl 1 34) (sl 1 2) (of_string "A");
        EvEnd (dl 1 28) (sl 1 2) (of_string "ABC")].
Proof. vm_compute. reflexivity. Qed.

Example parser_definition_list_2 :
  parse_text (of_string "A = 'a'; B = 'b'; C = 'c'; ABC = A | B | C;") (of_string "ABC") (of_string "b")
  = Ok [EvBegin (dl 1 28) (sl 1 1) (of_string "ABC");
        EvBegin (dl 1 38) (sl 1 1) (of_string "B");
        EvToken (dl 1 14) (sl 1 1) (of_string "b");
        EvEnd (dl 1 38) (sl 1 2) (of_string "B");
        EvEnd (dl 1 28) (sl 1 2) (of_string "ABC")].
Proof. vm_compute. reflexivity. Qed.

Example parser_definition_list_3 :
  parse_text (of_string "A = 'a'; B = 'b'; C = 'c'; ABC = A | B | C;") (of_string "ABC") (of_string "c")
  = Ok [EvBegin (dl 1 28) (sl 1 1) (of_string "ABC");
        EvBegin (dl 1 42) (sl 1 1) (of_string "C");
        EvToken (dl 1 23) (sl 1 1) (of_string "c");
        EvEnd (dl 1 42) (sl 1 2) (of_string "C");
        EvEnd (dl 1 28) (sl 1 2) (of_string "ABC")].
Proof. vm_compute. reflexivity. Qed.

Example parser_definition_list_4 :
  parse_text (of_string "A = 'a'; B = 'b'; C = 'c'; ABC = A | B | C;") (of_string "ABC") (of_string "d")
  = Err (Error_ (sl 1 1) (MExpected (parallel_notation [(of_string "A"); (of_string "B"); (of_string "C")] (of_string "or")) (AText (of_string "d") false))).
Proof. vm_compute. reflexivity. Qed.

Example parser_definition_list_5 :
  parse_text (of_string "A = 'a'; B = 'b'; C = 'c'; ABC = A | B | C;") (of_string "ABC") (of_string "")
  = Err (Error_ (sl 1 1) (MExpected (parallel_notation [(of_string "A"); (of_string "B"); (of_string "C")] (of_string "or")) AEof)).
Proof. vm_compute. reflexivity. Qed.

Example parser_definition_list_6 :
  parse_text (of_string "A = {'a'}; AA = 'aa'; AAA = A | AA;") (of_string "AAA") (of_string "aa")
  = Ok [EvBegin (dl 1 23) (sl 1 1) (of_string "AAA");
        EvBegin (dl 1 29) (sl 1 1) (of_string "A");
        EvToken (dl 1 6) (sl 1 1) (of_string "a");
        EvToken (dl 1 6) (sl 1 2) (of_string "a");
        EvEnd (dl 1 29) (sl 1 3) (of_string "A");
        EvEnd (dl 1 23) (sl 1 3) (of_string "AAA")].
Proof. vm_compute. reflexivity. Qed.

Example parser_single_definition_1 :
  parse_text (of_string "A = 'a'; B = 'b'; ABC = A, B, 'c';") (of_string "ABC") (of_string "abc")
  = Ok [EvBegin (dl 1 19) (sl 1 1) (of_string "ABC");
        EvBegin (dl 1 25) (sl 1 1) (of_string "A");
        EvToken (dl 1 5) (sl 1 1) (of_string "a");
        EvEnd (dl 1 25) (sl 1 2) (of_string "A");
        EvBegin (dl 1 28) (sl 1 2) (of_string "B");
        EvToken (dl 1 14) (sl 1 2) (of_string "b");
        EvEnd (dl 1 28) (sl 1 3) (of_string "B");
        EvToken (dl 1 31) (sl 1 3) (of_string "c");
        EvEnd (dl 1 19) (sl 1 4) (of_string "ABC")].
Proof. vm_compute. reflexivity. Qed.

Example parser_single_definition_2 :
  parse_text (of_string "A = 'a'; B = 'b'; ABC = A, B, 'c';") (of_string "ABC") (of_string "a")
  = Err (Error_ (sl 1 2) (MExpected (parallel_notation [(of_string """b""")] (of_string "or")) AEof)).
Proof. vm_compute. reflexivity. Qed.

Example parser_single_definition_3 :
  parse_text (of_string "A = 'a'; B = 'b'; ABC = A, B, 'c';") (of_string "ABC") (of_string "ab")
  = Err (Error_ (sl 1 3) (MExpected (parallel_notation [(of_string """c""")] (of_string "or")) AEof)).
Proof. vm_compute. reflexivity. Qed.

Example parser_single_definition_4 :
  parse_text (of_string "A = 'a'; B = 'b'; ABC = A, B, 'c';") (of_string "ABC") (of_string "abcd")
  = Err (Error_ (sl 1 4) (MExpected (parallel_notation [(of_string "EOF")] (of_string "or")) (AText (of_string "d") false))).
Proof. vm_compute. reflexivity. Qed.

Example parser_single_definition_5 :
  parse_text (of_string "A = 'a'; B = 'b'; ABC = A, B, 'c';") (of_string "ABC") (of_string "d")
  = Err (Error_ (sl 1 1) (MExpected (parallel_notation [(of_string """a""")] (of_string "or")) (AText (of_string "d") false))).
Proof. vm_compute. reflexivity. Qed.

Example parser_single_definition_6 :
  parse_text (of_string "A = 'a'; B = 'b'; ABC = A, B, 'c';") (of_string "ABC") (of_string "")
  = Err (Error_ (sl 1 1) (MExpected (parallel_notation [(of_string """a""")] (of_string "or")) AEof)).
Proof. vm_compute. reflexivity. Qed.

Example parser_syntactic_term_with_exception_1 :
  parse_text (of_string "A = ('a' | 'b' | 'c') - ('b' | 'c');") (of_string "A") (of_string "a")
  = Ok [EvBegin (dl 1 1) (sl 1 1) (of_string "A");
        EvToken (dl 1 6) (sl 1 1) (of_string "a");
        EvEnd (dl 1 1) (sl 1 2) (of_string "A")].
Proof. vm_compute. reflexivity. Qed.

Example parser_syntactic_term_with_exception_2 :
  parse_text (of_string "A = ('a' | 'b' | 'c') - ('b' | 'c');") (of_string "A") (of_string "b")
  = Err (Error_ (sl 1 1) (MExpected (parallel_notation [(of_string "('a'|'b'|'c')-('b'|'c')")] (of_string "or")) (AText (of_string "b") false))).
Proof. vm_compute. reflexivity. Qed.

Example parser_syntactic_term_with_exception_3 :
  parse_text (of_string "A = ('a' | 'b' | 'c') - ('b' | 'c');") (of_string "A") (of_string "c")
  = Err (Error_ (sl 1 1) (MExpected (parallel_notation [(of_string "('a'|'b'|'c')-('b'|'c')")] (of_string "or")) (AText (of_string "c") false))).
Proof. vm_compute. reflexivity. Qed.

Example parser_syntactic_term_with_exception_4 :
  parse_text (of_string "A = ('a' | 'b' | 'c') - ('b' | 'c');") (of_string "A") (of_string "d")
  = Err (Error_ (sl 1 1) (MExpected (parallel_notation [(of_string """a"""); (of_string """b"""); (of_string """c""")] (of_string "or")) (AText (of_string "d") false))).
Proof. vm_compute. reflexivity. Qed.

Example parser_syntactic_term_with_exception_5 :
  parse_text (of_string "A = ('a' | 'b' | 'c') - ('b' | 'c');") (of_string "A") (of_string "")
  = Err (Error_ (sl 1 1) (MExpected (parallel_notation [(of_string """a"""); (of_string """b"""); (of_string """c""")] (of_string "or")) AEof)).
Proof. vm_compute. reflexivity. Qed.

Example parser_syntactic_term_excluding_empty_set_1 :
  parse_text (of_string "A = ['a'] - ;") (of_string "A") (of_string "a")
  = Ok [EvBegin (dl 1 1) (sl 1 1) (of_string "A");
        EvToken (dl 1 6) (sl 1 1) (of_string "a");
        EvEnd (dl 1 1) (sl 1 2) (of_string "A")].
Proof. vm_compute. reflexivity. Qed.

Example parser_syntactic_term_excluding_empty_set_2 :
  parse_text (of_string "A = ['a'] - ;") (of_string "A") (of_string "")
  = Err (Error_ (sl 1 1) (MExpected (parallel_notation [(of_string "['a']-")] (of_string "or")) AEof)).
Proof. vm_compute. reflexivity. Qed.

Example parser_syntactic_term_excluding_empty_set_3 :
  parse_text (of_string "A = {'a'} - ;") (of_string "A") (of_string "a")
  = Ok [EvBegin (dl 1 1) (sl 1 1) (of_string "A");
        EvToken (dl 1 6) (sl 1 1) (of_string "a");
        EvEnd (dl 1 1) (sl 1 2) (of_string "A")].
Proof. vm_compute. reflexivity. Qed.

Example parser_syntactic_term_excluding_empty_set_4 :
  parse_text (of_string "A = {'a'} - ;") (of_string "A") (of_string "aa")
  = Ok [EvBegin (dl 1 1) (sl 1 1) (of_string "A");
        EvToken (dl 1 6) (sl 1 1) (of_string "a");
        EvToken (dl 1 6) (sl 1 2) (of_string "a");
        EvEnd (dl 1 1) (sl 1 3) (of_string "A")].
Proof. vm_compute. reflexivity. Qed.

Example parser_syntactic_term_excluding_empty_set_5 :
  parse_text (of_string "A = {'a'} - ;") (of_string "A") (of_string "")
  = Err (Error_ (sl 1 1) (MExpected (parallel_notation [(of_string "{'a'}-")] (of_string "or")) AEof)).
Proof. vm_compute. reflexivity. Qed.

Example parser_syntactic_term_excluding_empty_set_6 :
  parse_text (of_string "AB = ('a' | 'b' | ) - ;") (of_string "AB") (of_string "a")
  = Ok [EvBegin (dl 1 1) (sl 1 1) (of_string "AB");
        EvToken (dl 1 7) (sl 1 1) (of_string "a");
        EvEnd (dl 1 1) (sl 1 2) (of_string "AB")].
Proof. vm_compute. reflexivity. Qed.

Example parser_syntactic_term_excluding_empty_set_7 :
  parse_text (of_string "AB = ('a' | 'b' | ) - ;") (of_string "AB") (of_string "b")
  = Ok [EvBegin (dl 1 1) (sl 1 1) (of_string "AB");
        EvToken (dl 1 13) (sl 1 1) (of_string "b");
        EvEnd (dl 1 1) (sl 1 2) (of_string "AB")].
Proof. vm_compute. reflexivity. Qed.

Example parser_syntactic_term_excluding_empty_set_8 :
  parse_text (of_string "AB = ('a' | 'b' | ) - ;") (of_string "AB") (of_string "")
  = Err (Error_ (sl 1 1) (MExpected (parallel_notation [(of_string "('a'|'b'|)-")] (of_string "or")) AEof)).
Proof. vm_compute. reflexivity. Qed.

Example parser_syntactic_factor_with_repetition_1 :
  parse_text (of_string "A = 2 * ('a' | 'b', 'c');") (of_string "A") (of_string "aa")
  = Ok [EvBegin (dl 1 1) (sl 1 1) (of_string "A");
        EvToken (dl 1 10) (sl 1 1) (of_string "a");
        EvToken (dl 1 10) (sl 1 2) (of_string "a");
        EvEnd (dl 1 1) (sl 1 3) (of_string "A")].
Proof. vm_compute. reflexivity. Qed.

Example parser_syntactic_factor_with_repetition_2 :
  parse_text (of_string "A = 2 * ('a' | 'b', 'c');") (of_string "A") (of_string "abc")
  = Ok [EvBegin (dl 1 1) (sl 1 1) (of_string "A");
        EvToken (dl 1 10) (sl 1 1) (of_string "a");
        EvToken (dl 1 16) (sl 1 2) (of_string "b");
        EvToken (dl 1 21) (sl 1 3) (of_string "c");
        EvEnd (dl 1 1) (sl 1 4) (of_string "A")].
Proof. vm_compute. reflexivity. Qed.

Example parser_syntactic_factor_with_repetition_3 :
  parse_text (of_string "A = 2 * ('a' | 'b', 'c');") (of_string "A") (of_string "bcbc")
  = Ok [EvBegin (dl 1 1) (sl 1 1) (of_string "A");
        EvToken (dl 1 16) (sl 1 1) (of_string "b");
        EvToken (dl 1 21) (sl 1 2) (of_string "c");
        EvToken (dl 1 16) (sl 1 3) (of_string "b");
        EvToken (dl 1 21) (sl 1 4) (of_string "c");
        EvEnd (dl 1 1) (sl 1 5) (of_string "A")].
Proof. vm_compute. reflexivity. Qed.

Example parser_syntactic_factor_with_repetition_4 :
  parse_text (of_string "A = 2 * ('a' | 'b', 'c');") (of_string "A") (of_string "bca")
  = Ok [EvBegin (dl 1 1) (sl 1 1) (of_string "A");
        EvToken (dl 1 16) (sl 1 1) (of_string "b");
        EvToken (dl 1 21) (sl 1 2) (of_string "c");
        EvToken (dl 1 10) (sl 1 3) (of_string "a");
        EvEnd (dl 1 1) (sl 1 4) (of_string "A")].
Proof. vm_compute. reflexivity. Qed.

Example parser_syntactic_factor_with_repetition_5 :
  parse_text (of_string "A = 2 * ('a' | 'b', 'c');") (of_string "A") (of_string "")
  = Err (Error_ (sl 1 1) (MExpected (parallel_notation [(of_string """a"""); (of_string """b""")] (of_string "or")) AEof)).
Proof. vm_compute. reflexivity. Qed.

Example parser_syntactic_factor_with_repetition_6 :
  parse_text (of_string "A = 2 * ('a' | 'b', 'c');") (of_string "A") (of_string "x")
  = Err (Error_ (sl 1 1) (MExpected (parallel_notation [(of_string """a"""); (of_string """b""")] (of_string "or")) (AText (of_string "x") false))).
Proof. vm_compute. reflexivity. Qed.

Example parser_syntactic_factor_with_repetition_7 :
  parse_text (of_string "A = 2 * ('a' | 'b', 'c');") (of_string "A") (of_string "a")
  = Err (Error_ (sl 1 2) (MExpected (parallel_notation [(of_string """a"""); (of_string """b""")] (of_string "or")) AEof)).
Proof. vm_compute. reflexivity. Qed.

Example parser_syntactic_factor_with_repetition_8 :
  parse_text (of_string "A = 2 * ('a' | 'b', 'c');") (of_string "A") (of_string "ax")
  = Err (Error_ (sl 1 2) (MExpected (parallel_notation [(of_string """a"""); (of_string """b""")] (of_string "or")) (AText (of_string "x") false))).
Proof. vm_compute. reflexivity. Qed.

Example parser_syntactic_factor_with_repetition_9 :
  parse_text (of_string "A = 2 * ('a' | 'b', 'c');") (of_string "A") (of_string "ab")
  = Err (Error_ (sl 1 3) (MExpected (parallel_notation [(of_string """c""")] (of_string "or")) AEof)).
Proof. vm_compute. reflexivity. Qed.

Example parser_syntactic_factor_with_repetition_10 :
  parse_text (of_string "A = 2 * ('a' | 'b', 'c');") (of_string "A") (of_string "aaa")
  = Err (Error_ (sl 1 3) (MExpected (parallel_notation [(of_string "EOF")] (of_string "or")) (AText (of_string "a") false))).
Proof. vm_compute. reflexivity. Qed.

Example parser_syntactic_factor_with_repetition_11 :
  parse_text (of_string "A = 2 * ('a' | 'b', 'c');") (of_string "A") (of_string "aab")
  = Err (Error_ (sl 1 3) (MExpected (parallel_notation [(of_string "EOF")] (of_string "or")) (AText (of_string "b") false))).
Proof. vm_compute. reflexivity. Qed.

Example parser_syntactic_factor_with_repetition_12 :
  parse_text (of_string "A = 2 * ('a' | 'b', 'c');") (of_string "A") (of_string "aax")
  = Err (Error_ (sl 1 3) (MExpected (parallel_notation [(of_string "EOF")] (of_string "or")) (AText (of_string "x") false))).
Proof. vm_compute. reflexivity. Qed.

Example parser_syntactic_factor_with_repetition_13 :
  parse_text (of_string "A = 2 * ('a' | 'b', 'c');") (of_string "A") (of_string "b")
  = Err (Error_ (sl 1 2) (MExpected (parallel_notation [(of_string """c""")] (of_string "or")) AEof)).
Proof. vm_compute. reflexivity. Qed.

Example parser_syntactic_factor_with_repetition_14 :
  parse_text (of_string "A = 2 * ('a' | 'b', 'c');") (of_string "A") (of_string "bx")
  = Err (Error_ (sl 1 2) (MExpected (parallel_notation [(of_string """c""")] (of_string "or")) (AText (of_string "x") false))).
Proof. vm_compute. reflexivity. Qed.

Example parser_syntactic_factor_with_repetition_15 :
  parse_text (of_string "A = 2 * ('a' | 'b', 'c');") (of_string "A") (of_string "bc")
  = Err (Error_ (sl 1 3) (MExpected (parallel_notation [(of_string """a"""); (of_string """b""")] (of_string "or")) AEof)).
Proof. vm_compute. reflexivity. Qed.

Example parser_syntactic_factor_with_repetition_16 :
  parse_text (of_string "A = 2 * ('a' | 'b', 'c');") (of_string "A") (of_string "bcb")
  = Err (Error_ (sl 1 4) (MExpected (parallel_notation [(of_string """c""")] (of_string "or")) AEof)).
Proof. vm_compute. reflexivity. Qed.

Example parser_syntactic_factor_with_repetition_17 :
  parse_text (of_string "A = 2 * ('a' | 'b', 'c');") (of_string "A") (of_string "bcbx")
  = Err (Error_ (sl 1 4) (MExpected (parallel_notation [(of_string """c""")] (of_string "or")) (AText (of_string "x") false))).
Proof. vm_compute. reflexivity. Qed.

Example parser_syntactic_factor_with_repetition_18 :
  parse_text (of_string "A = 2 * ('a' | 'b', 'c');") (of_string "A") (of_string "bcbca")
  = Err (Error_ (sl 1 5) (MExpected (parallel_notation [(of_string "EOF")] (of_string "or")) (AText (of_string "a") false))).
Proof. vm_compute. reflexivity. Qed.

Example parser_syntactic_factor_with_repetition_19 :
  parse_text (of_string "A = 2 * ('a' | 'b', 'c');") (of_string "A") (of_string "bcbcb")
  = Err (Error_ (sl 1 5) (MExpected (parallel_notation [(of_string "EOF")] (of_string "or")) (AText (of_string "b") false))).
Proof. vm_compute. reflexivity. Qed.

Example parser_syntactic_factor_with_repetition_20 :
  parse_text (of_string "A = 2 * ('a' | 'b', 'c');") (of_string "A") (of_string "bcbcx")
  = Err (Error_ (sl 1 5) (MExpected (parallel_notation [(of_string "EOF")] (of_string "or")) (AText (of_string "x") false))).
Proof. vm_compute. reflexivity. Qed.

Example parser_syntactic_factor_zero_repetition_1 :
  parse_text (of_string "A = 0 * 'a';") (of_string "A") (of_string "")
  = Ok [EvBegin (dl 1 1) (sl 1 1) (of_string "A");
        EvEnd (dl 1 1) (sl 1 1) (of_string "A")].
Proof. vm_compute. reflexivity. Qed.

Example parser_syntactic_factor_zero_repetition_2 :
  parse_text (of_string "A = 0 * 'a';") (of_string "A") (of_string "a")
  = Err (Error_ (sl 1 1) (MExpected (parallel_notation [(of_string "EOF")] (of_string "or")) (AText (of_string "a") false))).
Proof. vm_compute. reflexivity. Qed.

Example parser_syntactic_primary_optimal_sequence_1 :
  parse_text (of_string "A = ['a'];") (of_string "A") (of_string "")
  = Ok [EvBegin (dl 1 1) (sl 1 1) (of_string "A");
        EvEnd (dl 1 1) (sl 1 1) (of_string "A")].
Proof. vm_compute. reflexivity. Qed.

Example parser_syntactic_primary_optimal_sequence_2 :
  parse_text (of_string "A = ['a'];") (of_string "A") (of_string "a")
  = Ok [EvBegin (dl 1 1) (sl 1 1) (of_string "A");
        EvToken (dl 1 6) (sl 1 1) (of_string "a");
        EvEnd (dl 1 1) (sl 1 2) (of_string "A")].
Proof. vm_compute. reflexivity. Qed.

Example parser_syntactic_primary_optimal_sequence_3 :
  parse_text (of_string "A = ['a'];") (of_string "A") (of_string "aa")
  = Err (Error_ (sl 1 2) (MExpected (parallel_notation [(of_string "EOF")] (of_string "or")) (AText (of_string "a") false))).
Proof. vm_compute. reflexivity. Qed.

Example parser_syntactic_primary_optimal_sequence_nested_1 :
  parse_text (of_string "AB = ['a', ['b']];") (of_string "AB") (of_string "")
  = Ok [EvBegin (dl 1 1) (sl 1 1) (of_string "AB");
        EvEnd (dl 1 1) (sl 1 1) (of_string "AB")].
Proof. vm_compute. reflexivity. Qed.

Example parser_syntactic_primary_optimal_sequence_nested_2 :
  parse_text (of_string "AB = ['a', ['b']];") (of_string "AB") (of_string "a")
  = Ok [EvBegin (dl 1 1) (sl 1 1) (of_string "AB");
        EvToken (dl 1 7) (sl 1 1) (of_string "a");
        EvEnd (dl 1 1) (sl 1 2) (of_string "AB")].
Proof. vm_compute. reflexivity. Qed.

Example parser_syntactic_primary_optimal_sequence_nested_3 :
  parse_text (of_string "AB = ['a', ['b']];") (of_string "AB") (of_string "ab")
  = Ok [EvBegin (dl 1 1) (sl 1 1) (of_string "AB");
        EvToken (dl 1 7) (sl 1 1) (of_string "a");
        EvToken (dl 1 13) (sl 1 2) (of_string "b");
        EvEnd (dl 1 1) (sl 1 3) (of_string "AB")].
Proof. vm_compute. reflexivity. Qed.

Example parser_syntactic_primary_optimal_sequence_nested_4 :
  parse_text (of_string "AB = ['a', ['b']];") (of_string "AB") (of_string "b")
  = Err (Error_ (sl 1 1) (MExpected (parallel_notation [(of_string "EOF")] (of_string "or")) (AText (of_string "b") false))).
Proof. vm_compute. reflexivity. Qed.

Example parser_syntactic_primary_optimal_sequence_nested_5 :
  parse_text (of_string "AB = ['a', ['b']];") (of_string "AB") (of_string "ac")
  = Err (Error_ (sl 1 2) (MExpected (parallel_notation [(of_string "EOF")] (of_string "or")) (AText (of_string "c") false))).
Proof. vm_compute. reflexivity. Qed.

Example parser_syntactic_primary_repeated_sequence_with_enclosures_1 :
  parse_text (of_string "A = '(', {'a'}, ')';") (of_string "A") (of_string "(a)")
  = Ok [EvBegin (dl 1 1) (sl 1 1) (of_string "A");
        EvToken (dl 1 5) (sl 1 1) (of_string "(");
        EvToken (dl 1 11) (sl 1 2) (of_string "a");
        EvToken (dl 1 17) (sl 1 3) (of_string ")");
        EvEnd (dl 1 1) (sl 1 4) (of_string "A")].
Proof. vm_compute. reflexivity. Qed.

Example parser_syntactic_primary_repeated_sequence_with_enclosures_2 :
  parse_text (of_string "A = '(', {'a'}, ')';") (of_string "A") (of_string "(aa)")
  = Ok [EvBegin (dl 1 1) (sl 1 1) (of_string "A");
        EvToken (dl 1 5) (sl 1 1) (of_string "(");
        EvToken (dl 1 11) (sl 1 2) (of_string "a");
        EvToken (dl 1 11) (sl 1 3) (of_string "a");
        EvToken (dl 1 17) (sl 1 4) (of_string ")");
        EvEnd (dl 1 1) (sl 1 5) (of_string "A")].
Proof. vm_compute. reflexivity. Qed.

Example parser_syntactic_primary_repeated_sequence_with_enclosures_3 :
  parse_text (of_string "A = '(', {'a'}, ')';") (of_string "A") (of_string "()")
  = Ok [EvBegin (dl 1 1) (sl 1 1) (of_string "A");
        EvToken (dl 1 5) (sl 1 1) (of_string "(");
        EvToken (dl 1 17) (sl 1 2) (of_string ")");
        EvEnd (dl 1 1) (sl 1 3) (of_string "A")].
Proof. vm_compute. reflexivity. Qed.

Example parser_syntactic_primary_grouped_sequence_1 :
  parse_text (of_string "ABC = ('a' | 'b', 'c');") (of_string "ABC") (of_string "a")
  = Ok [EvBegin (dl 1 1) (sl 1 1) (of_string "ABC");
        EvToken (dl 1 8) (sl 1 1) (of_string "a");
        EvEnd (dl 1 1) (sl 1 2) (of_string "ABC")].
Proof. vm_compute. reflexivity. Qed.

Example parser_syntactic_primary_grouped_sequence_2 :
  parse_text (of_string "ABC = ('a' | 'b', 'c');") (of_string "ABC") (of_string "bc")
  = Ok [EvBegin (dl 1 1) (sl 1 1) (of_string "ABC");
        EvToken (dl 1 14) (sl 1 1) (of_string "b");
        EvToken (dl 1 19) (sl 1 2) (of_string "c");
        EvEnd (dl 1 1) (sl 1 3) (of_string "ABC")].
Proof. vm_compute. reflexivity. Qed.

Example parser_syntactic_primary_grouped_sequence_3 :
  parse_text (of_string "ABC = ('a' | 'b', 'c');") (of_string "ABC") (of_string "")
  = Err (Error_ (sl 1 1) (MExpected (parallel_notation [(of_string """a"""); (of_string """b""")] (of_string "or")) AEof)).
Proof. vm_compute. reflexivity. Qed.

Example parser_syntactic_primary_meta_identifier_1 :
  parse_text (of_string "A = 'a'; B = 'b'; C = 'c'; ABC = A, [B], {C};") (of_string "ABC") (of_string "a")
  = Ok [EvBegin (dl 1 28) (sl 1 1) (of_string "ABC");
        EvBegin (dl 1 34) (sl 1 1) (of_string "A");
        EvToken (dl 1 5) (sl 1 1) (of_string "a");
        EvEnd (dl 1 34) (sl 1 2) (of_string "A");
        EvEnd (dl 1 28) (sl 1 2) (of_string "ABC")].
Proof. vm_compute. reflexivity. Qed.

Example parser_syntactic_primary_terminal_string_1 :
  parse_text (of_string "AB = 'a', ['b'];") (of_string "AB") (of_string "a")
  = Ok [EvBegin (dl 1 1) (sl 1 1) (of_string "AB");
        EvToken (dl 1 6) (sl 1 1) (of_string "a");
        EvEnd (dl 1 1) (sl 1 2) (of_string "AB")].
Proof. vm_compute. reflexivity. Qed.

Example parser_syntactic_primary_empty_1 :
  parse_text (of_string "E = ;") (of_string "E") (of_string "")
  = Ok [EvBegin (dl 1 1) (sl 1 1) (of_string "E");
        EvEnd (dl 1 1) (sl 1 1) (of_string "E")].
Proof. vm_compute. reflexivity. Qed.

Example parser_syntactic_primary_empty_2 :
  parse_text (of_string "E = ; AB = (E | 'a' | 'b');") (of_string "AB") (of_string "")
  = Ok [EvBegin (dl 1 7) (sl 1 1) (of_string "AB");
        EvEnd (dl 1 7) (sl 1 1) (of_string "AB")].
Proof. vm_compute. reflexivity. Qed.

Example parser_syntactic_primary_empty_3 :
  parse_text (of_string "E = ; AB = ('a' | E | 'b');") (of_string "AB") (of_string "")
  = Ok [EvBegin (dl 1 7) (sl 1 1) (of_string "AB");
        EvEnd (dl 1 7) (sl 1 1) (of_string "AB")].
Proof. vm_compute. reflexivity. Qed.

Example parser_syntactic_primary_empty_4 :
  parse_text (of_string "E = ; AB = ('a' | 'b' | E);") (of_string "AB") (of_string "")
  = Ok [EvBegin (dl 1 7) (sl 1 1) (of_string "AB");
        EvEnd (dl 1 7) (sl 1 1) (of_string "AB")].
Proof. vm_compute. reflexivity. Qed.

Example parser_syntactic_primary_empty_5 :
  parse_text (of_string "E = ; AB = ('a' | E | 'b');") (of_string "AB") (of_string "")
  = Ok [EvBegin (dl 1 7) (sl 1 1) (of_string "AB");
        EvEnd (dl 1 7) (sl 1 1) (of_string "AB")].
Proof. vm_compute. reflexivity. Qed.

Example parser_syntactic_primary_empty_6 :
  parse_text (of_string "E = ; AB = ('a' | 'b' | E);") (of_string "AB") (of_string "")
  = Ok [EvBegin (dl 1 7) (sl 1 1) (of_string "AB");
        EvEnd (dl 1 7) (sl 1 1) (of_string "AB")].
Proof. vm_compute. reflexivity. Qed.

Example parser_livelock_1 :
  parse_text (of_string "E = {}") (of_string "E") (of_string "abc")
  = Err (Error_ (sl 1 1) MLivelock).
Proof. vm_compute. reflexivity. Qed.

Definition is_ascii_control (c : char) : bool := (c <? 32) || (c =? 127).
Definition wiki_config : config := fun _ label =>
  if str_eqb (trim label) (of_string "white space characters")
  then ScChars (fun c => is_rust_whitespace c || is_ascii_control c) (Some 1) None
  else ScChars (fun c => negb (is_ascii_control c)) (Some 1) (Some 1).
Definition wiki_syntax : str := (of_string "(* a simple program syntax in EBNF - Wikipedia *)
program = 'PROGRAM', white space, identifier, white space,
  'BEGIN', white space,
  { assignment, "";"", white space },
  'END.' ;
identifier = alphabetic character, { alphabetic character | digit } ;
number = [ ""-"" ], digit, { digit } ;
string = '""' , { all characters - '""' }, '""' ;
assignment = identifier , "":="" , ( number | identifier | string ) ;
alphabetic character = ""A"" | ""B"" | ""C"" | ""D"" | ""E"" | ""F"" | ""G""
            | ""H"" | ""I"" | ""J"" | ""K"" | ""L"" | ""M"" | ""N""
            | ""O"" | ""P"" | ""Q"" | ""R"" | ""S"" | ""T"" | ""U""
            | ""V"" | ""W"" | ""X"" | ""Y"" | ""Z"" ;
digit = ""0"" | ""1"" | ""2"" | ""3"" | ""4"" | ""5"" | ""6"" | ""7"" | ""8"" | ""9"" ;
white space = ? white space characters ? ;
all characters = ? all visible characters ? ;").
Definition wiki_input : str := (of_string "PROGRAM DEMO1
BEGIN
  A:=3;
  B:=45;
  H:=-100023;
  C:=A;
  D123:=B34A;
  BABOON:=GIRAFFE;
  TEXT:=""Hello world!"";
END.").
Example wikipedia :
  parse_with wiki_config wiki_syntax (of_string "program") wiki_input
  = Ok [EvBegin (dl 2 1) (sl 1 1) (of_string "program");
        EvToken (dl 2 11) (sl 1 1) (of_string "PROGRAM");
        EvBegin (dl 2 22) (sl 1 8) (of_string "white space");
        EvToken (dl 15 15) (sl 1 8) (of_string " ");
        EvEnd (dl 2 22) (sl 1 9) (of_string "white space");
        EvBegin (dl 2 35) (sl 1 9) (of_string "identifier");
        EvBegin (dl 6 14) (sl 1 9) (of_string "alphabetic character");
        EvToken (dl 10 42) (sl 1 9) (of_string "D");
        EvEnd (dl 6 14) (sl 1 10) (of_string "alphabetic character");
        EvBegin (dl 6 38) (sl 1 10) (of_string "alphabetic character");
        EvToken (dl 10 48) (sl 1 10) (of_string "E");
        EvEnd (dl 6 38) (sl 1 11) (of_string "alphabetic character");
        EvBegin (dl 6 38) (sl 1 11) (of_string "alphabetic character");
        EvToken (dl 11 45) (sl 1 11) (of_string "M");
        EvEnd (dl 6 38) (sl 1 12) (of_string "alphabetic character");
        EvBegin (dl 6 38) (sl 1 12) (of_string "alphabetic character");
        EvToken (dl 12 15) (sl 1 12) (of_string "O");
        EvEnd (dl 6 38) (sl 1 13) (of_string "alphabetic character");
        EvBegin (dl 6 61) (sl 1 13) (of_string "digit");
        EvToken (dl 14 15) (sl 1 13) (of_string "1");
        EvEnd (dl 6 61) (sl 1 14) (of_string "digit");
        EvEnd (dl 2 35) (sl 1 14) (of_string "identifier");
        EvBegin (dl 2 47) (sl 1 14) (of_string "white space");
        EvToken (dl 15 15) (sl 1 14) (of_string "
");
        EvEnd (dl 2 47) (sl 2 1) (of_string "white space");
        EvToken (dl 3 3) (sl 2 1) (of_string "BEGIN");
        EvBegin (dl 3 12) (sl 2 6) (of_string "white space");
        EvToken (dl 15 15) (sl 2 6) (of_string "
  ");
        EvEnd (dl 3 12) (sl 3 3) (of_string "white space");
        EvBegin (dl 4 5) (sl 3 3) (of_string "assignment");
        EvBegin (dl 9 14) (sl 3 3) (of_string "identifier");
        EvBegin (dl 6 14) (sl 3 3) (of_string "alphabetic character");
        EvToken (dl 10 24) (sl 3 3) (of_string "A");
        EvEnd (dl 6 14) (sl 3 4) (of_string "alphabetic character");
        EvEnd (dl 9 14) (sl 3 4) (of_string "identifier");
        EvToken (dl 9 27) (sl 3 4) (of_string ":=");
        EvBegin (dl 9 36) (sl 3 6) (of_string "number");
        EvBegin (dl 7 19) (sl 3 6) (of_string "digit");
        EvToken (dl 14 27) (sl 3 6) (of_string "3");
        EvEnd (dl 7 19) (sl 3 7) (of_string "digit");
        EvEnd (dl 9 36) (sl 3 7) (of_string "number");
        EvEnd (dl 4 5) (sl 3 7) (of_string "assignment");
        EvToken (dl 4 17) (sl 3 7) (of_string ";");
        EvBegin (dl 4 22) (sl 3 8) (of_string "white space");
        EvToken (dl 15 15) (sl 3 8) (of_string "
  ");
        EvEnd (dl 4 22) (sl 4 3) (of_string "white space");
        EvBegin (dl 4 5) (sl 4 3) (of_string "assignment");
        EvBegin (dl 9 14) (sl 4 3) (of_string "identifier");
        EvBegin (dl 6 14) (sl 4 3) (of_string "alphabetic character");
        EvToken (dl 10 30) (sl 4 3) (of_string "B");
        EvEnd (dl 6 14) (sl 4 4) (of_string "alphabetic character");
        EvEnd (dl 9 14) (sl 4 4) (of_string "identifier");
        EvToken (dl 9 27) (sl 4 4) (of_string ":=");
        EvBegin (dl 9 36) (sl 4 6) (of_string "number");
        EvBegin (dl 7 19) (sl 4 6) (of_string "digit");
        EvToken (dl 14 33) (sl 4 6) (of_string "4");
        EvEnd (dl 7 19) (sl 4 7) (of_string "digit");
        EvBegin (dl 7 28) (sl 4 7) (of_string "digit");
        EvToken (dl 14 39) (sl 4 7) (of_string "5");
        EvEnd (dl 7 28) (sl 4 8) (of_string "digit");
        EvEnd (dl 9 36) (sl 4 8) (of_string "number");
        EvEnd (dl 4 5) (sl 4 8) (of_string "assignment");
        EvToken (dl 4 17) (sl 4 8) (of_string ";");
        EvBegin (dl 4 22) (sl 4 9) (of_string "white space");
        EvToken (dl 15 15) (sl 4 9) (of_string "
  ");
        EvEnd (dl 4 22) (sl 5 3) (of_string "white space");
        EvBegin (dl 4 5) (sl 5 3) (of_string "assignment");
        EvBegin (dl 9 14) (sl 5 3) (of_string "identifier");
        EvBegin (dl 6 14) (sl 5 3) (of_string "alphabetic character");
        EvToken (dl 11 15) (sl 5 3) (of_string "H");
        EvEnd (dl 6 14) (sl 5 4) (of_string "alphabetic character");
        EvEnd (dl 9 14) (sl 5 4) (of_string "identifier");
        EvToken (dl 9 27) (sl 5 4) (of_string ":=");
        EvBegin (dl 9 36) (sl 5 6) (of_string "number");
        EvToken (dl 7 12) (sl 5 6) (of_string "-");
        EvBegin (dl 7 19) (sl 5 7) (of_string "digit");
        EvToken (dl 14 15) (sl 5 7) (of_string "1");
        EvEnd (dl 7 19) (sl 5 8) (of_string "digit");
        EvBegin (dl 7 28) (sl 5 8) (of_string "digit");
        EvToken (dl 14 9) (sl 5 8) (of_string "0");
        EvEnd (dl 7 28) (sl 5 9) (of_string "digit");
        EvBegin (dl 7 28) (sl 5 9) (of_string "digit");
        EvToken (dl 14 9) (sl 5 9) (of_string "0");
        EvEnd (dl 7 28) (sl 5 10) (of_string "digit");
        EvBegin (dl 7 28) (sl 5 10) (of_string "digit");
        EvToken (dl 14 9) (sl 5 10) (of_string "0");
        EvEnd (dl 7 28) (sl 5 11) (of_string "digit");
        EvBegin (dl 7 28) (sl 5 11) (of_string "digit");
        EvToken (dl 14 21) (sl 5 11) (of_string "2");
        EvEnd (dl 7 28) (sl 5 12) (of_string "digit");
        EvBegin (dl 7 28) (sl 5 12) (of_string "digit");
        EvToken (dl 14 27) (sl 5 12) (of_string "3");
        EvEnd (dl 7 28) (sl 5 13) (of_string "digit");
        EvEnd (dl 9 36) (sl 5 13) (of_string "number");
        EvEnd (dl 4 5) (sl 5 13) (of_string "assignment");
        EvToken (dl 4 17) (sl 5 13) (of_string ";");
        EvBegin (dl 4 22) (sl 5 14) (of_string "white space");
        EvToken (dl 15 15) (sl 5 14) (of_string "
  ");
        EvEnd (dl 4 22) (sl 6 3) (of_string "white space");
        EvBegin (dl 4 5) (sl 6 3) (of_string "assignment");
        EvBegin (dl 9 14) (sl 6 3) (of_string "identifier");
        EvBegin (dl 6 14) (sl 6 3) (of_string "alphabetic character");
        EvToken (dl 10 36) (sl 6 3) (of_string "C");
        EvEnd (dl 6 14) (sl 6 4) (of_string "alphabetic character");
        EvEnd (dl 9 14) (sl 6 4) (of_string "identifier");
        EvToken (dl 9 27) (sl 6 4) (of_string ":=");
        EvBegin (dl 9 45) (sl 6 6) (of_string "identifier");
        EvBegin (dl 6 14) (sl 6 6) (of_string "alphabetic character");
        EvToken (dl 10 24) (sl 6 6) (of_string "A");
        EvEnd (dl 6 14) (sl 6 7) (of_string "alphabetic character");
        EvEnd (dl 9 45) (sl 6 7) (of_string "identifier");
        EvEnd (dl 4 5) (sl 6 7) (of_string "assignment");
        EvToken (dl 4 17) (sl 6 7) (of_string ";");
        EvBegin (dl 4 22) (sl 6 8) (of_string "white space");
        EvToken (dl 15 15) (sl 6 8) (of_string "
  ");
        EvEnd (dl 4 22) (sl 7 3) (of_string "white space");
        EvBegin (dl 4 5) (sl 7 3) (of_string "assignment");
        EvBegin (dl 9 14) (sl 7 3) (of_string "identifier");
        EvBegin (dl 6 14) (sl 7 3) (of_string "alphabetic character");
        EvToken (dl 10 42) (sl 7 3) (of_string "D");
        EvEnd (dl 6 14) (sl 7 4) (of_string "alphabetic character");
        EvBegin (dl 6 61) (sl 7 4) (of_string "digit");
        EvToken (dl 14 15) (sl 7 4) (of_string "1");
        EvEnd (dl 6 61) (sl 7 5) (of_string "digit");
        EvBegin (dl 6 61) (sl 7 5) (of_string "digit");
        EvToken (dl 14 21) (sl 7 5) (of_string "2");
        EvEnd (dl 6 61) (sl 7 6) (of_string "digit");
        EvBegin (dl 6 61) (sl 7 6) (of_string "digit");
        EvToken (dl 14 27) (sl 7 6) (of_string "3");
        EvEnd (dl 6 61) (sl 7 7) (of_string "digit");
        EvEnd (dl 9 14) (sl 7 7) (of_string "identifier");
        EvToken (dl 9 27) (sl 7 7) (of_string ":=");
        EvBegin (dl 9 45) (sl 7 9) (of_string "identifier");
        EvBegin (dl 6 14) (sl 7 9) (of_string "alphabetic character");
        EvToken (dl 10 30) (sl 7 9) (of_string "B");
        EvEnd (dl 6 14) (sl 7 10) (of_string "alphabetic character");
        EvBegin (dl 6 61) (sl 7 10) (of_string "digit");
        EvToken (dl 14 27) (sl 7 10) (of_string "3");
        EvEnd (dl 6 61) (sl 7 11) (of_string "digit");
        EvBegin (dl 6 61) (sl 7 11) (of_string "digit");
        EvToken (dl 14 33) (sl 7 11) (of_string "4");
        EvEnd (dl 6 61) (sl 7 12) (of_string "digit");
        EvBegin (dl 6 38) (sl 7 12) (of_string "alphabetic character");
        EvToken (dl 10 24) (sl 7 12) (of_string "A");
        EvEnd (dl 6 38) (sl 7 13) (of_string "alphabetic character");
        EvEnd (dl 9 45) (sl 7 13) (of_string "identifier");
        EvEnd (dl 4 5) (sl 7 13) (of_string "assignment");
        EvToken (dl 4 17) (sl 7 13) (of_string ";");
        EvBegin (dl 4 22) (sl 7 14) (of_string "white space");
        EvToken (dl 15 15) (sl 7 14) (of_string "
  ");
        EvEnd (dl 4 22) (sl 8 3) (of_string "white space");
        EvBegin (dl 4 5) (sl 8 3) (of_string "assignment");
        EvBegin (dl 9 14) (sl 8 3) (of_string "identifier");
        EvBegin (dl 6 14) (sl 8 3) (of_string "alphabetic character");
        EvToken (dl 10 30) (sl 8 3) (of_string "B");
        EvEnd (dl 6 14) (sl 8 4) (of_string "alphabetic character");
        EvBegin (dl 6 38) (sl 8 4) (of_string "alphabetic character");
        EvToken (dl 10 24) (sl 8 4) (of_string "A");
        EvEnd (dl 6 38) (sl 8 5) (of_string "alphabetic character");
        EvBegin (dl 6 38) (sl 8 5) (of_string "alphabetic character");
        EvToken (dl 10 30) (sl 8 5) (of_string "B");
        EvEnd (dl 6 38) (sl 8 6) (of_string "alphabetic character");
        EvBegin (dl 6 38) (sl 8 6) (of_string "alphabetic character");
        EvToken (dl 12 15) (sl 8 6) (of_string "O");
        EvEnd (dl 6 38) (sl 8 7) (of_string "alphabetic character");
        EvBegin (dl 6 38) (sl 8 7) (of_string "alphabetic character");
        EvToken (dl 12 15) (sl 8 7) (of_string "O");
        EvEnd (dl 6 38) (sl 8 8) (of_string "alphabetic character");
        EvBegin (dl 6 38) (sl 8 8) (of_string "alphabetic character");
        EvToken (dl 11 51) (sl 8 8) (of_string "N");
        EvEnd (dl 6 38) (sl 8 9) (of_string "alphabetic character");
        EvEnd (dl 9 14) (sl 8 9) (of_string "identifier");
        EvToken (dl 9 27) (sl 8 9) (of_string ":=");
        EvBegin (dl 9 45) (sl 8 11) (of_string "identifier");
        EvBegin (dl 6 14) (sl 8 11) (of_string "alphabetic character");
        EvToken (dl 10 60) (sl 8 11) (of_string "G");
        EvEnd (dl 6 14) (sl 8 12) (of_string "alphabetic character");
        EvBegin (dl 6 38) (sl 8 12) (of_string "alphabetic character");
        EvToken (dl 11 21) (sl 8 12) (of_string "I");
        EvEnd (dl 6 38) (sl 8 13) (of_string "alphabetic character");
        EvBegin (dl 6 38) (sl 8 13) (of_string "alphabetic character");
        EvToken (dl 12 33) (sl 8 13) (of_string "R");
        EvEnd (dl 6 38) (sl 8 14) (of_string "alphabetic character");
        EvBegin (dl 6 38) (sl 8 14) (of_string "alphabetic character");
        EvToken (dl 10 24) (sl 8 14) (of_string "A");
        EvEnd (dl 6 38) (sl 8 15) (of_string "alphabetic character");
        EvBegin (dl 6 38) (sl 8 15) (of_string "alphabetic character");
        EvToken (dl 10 54) (sl 8 15) (of_string "F");
        EvEnd (dl 6 38) (sl 8 16) (of_string "alphabetic character");
        EvBegin (dl 6 38) (sl 8 16) (of_string "alphabetic character");
        EvToken (dl 10 54) (sl 8 16) (of_string "F");
        EvEnd (dl 6 38) (sl 8 17) (of_string "alphabetic character");
        EvBegin (dl 6 38) (sl 8 17) (of_string "alphabetic character");
        EvToken (dl 10 48) (sl 8 17) (of_string "E");
        EvEnd (dl 6 38) (sl 8 18) (of_string "alphabetic character");
        EvEnd (dl 9 45) (sl 8 18) (of_string "identifier");
        EvEnd (dl 4 5) (sl 8 18) (of_string "assignment");
        EvToken (dl 4 17) (sl 8 18) (of_string ";");
        EvBegin (dl 4 22) (sl 8 19) (of_string "white space");
        EvToken (dl 15 15) (sl 8 19) (of_string "
  ");
        EvEnd (dl 4 22) (sl 9 3) (of_string "white space");
        EvBegin (dl 4 5) (sl 9 3) (of_string "assignment");
        EvBegin (dl 9 14) (sl 9 3) (of_string "identifier");
        EvBegin (dl 6 14) (sl 9 3) (of_string "alphabetic character");
        EvToken (dl 12 45) (sl 9 3) (of_string "T");
        EvEnd (dl 6 14) (sl 9 4) (of_string "alphabetic character");
        EvBegin (dl 6 38) (sl 9 4) (of_string "alphabetic character");
        EvToken (dl 10 48) (sl 9 4) (of_string "E");
        EvEnd (dl 6 38) (sl 9 5) (of_string "alphabetic character");
        EvBegin (dl 6 38) (sl 9 5) (of_string "alphabetic character");
        EvToken (dl 13 27) (sl 9 5) (of_string "X");
        EvEnd (dl 6 38) (sl 9 6) (of_string "alphabetic character");
        EvBegin (dl 6 38) (sl 9 6) (of_string "alphabetic character");
        EvToken (dl 12 45) (sl 9 6) (of_string "T");
        EvEnd (dl 6 38) (sl 9 7) (of_string "alphabetic character");
        EvEnd (dl 9 14) (sl 9 7) (of_string "identifier");
        EvToken (dl 9 27) (sl 9 7) (of_string ":=");
        EvBegin (dl 9 58) (sl 9 9) (of_string "string");
        EvToken (dl 8 10) (sl 9 9) (of_string """");
        EvBegin (dl 8 18) (sl 9 10) (of_string "all characters");
        EvToken (dl 16 18) (sl 9 10) (of_string "H");
        EvEnd (dl 8 18) (sl 9 11) (of_string "all characters");
        EvBegin (dl 8 18) (sl 9 11) (of_string "all characters");
        EvToken (dl 16 18) (sl 9 11) (of_string "e");
        EvEnd (dl 8 18) (sl 9 12) (of_string "all characters");
        EvBegin (dl 8 18) (sl 9 12) (of_string "all characters");
        EvToken (dl 16 18) (sl 9 12) (of_string "l");
        EvEnd (dl 8 18) (sl 9 13) (of_string "all characters");
        EvBegin (dl 8 18) (sl 9 13) (of_string "all characters");
        EvToken (dl 16 18) (sl 9 13) (of_string "l");
        EvEnd (dl 8 18) (sl 9 14) (of_string "all characters");
        EvBegin (dl 8 18) (sl 9 14) (of_string "all characters");
        EvToken (dl 16 18) (sl 9 14) (of_string "o");
        EvEnd (dl 8 18) (sl 9 15) (of_string "all characters");
        EvBegin (dl 8 18) (sl 9 15) (of_string "all characters");
        EvToken (dl 16 18) (sl 9 15) (of_string " ");
        EvEnd (dl 8 18) (sl 9 16) (of_string "all characters");
        EvBegin (dl 8 18) (sl 9 16) (of_string "all characters");
        EvToken (dl 16 18) (sl 9 16) (of_string "w");
        EvEnd (dl 8 18) (sl 9 17) (of_string "all characters");
        EvBegin (dl 8 18) (sl 9 17) (of_string "all characters");
        EvToken (dl 16 18) (sl 9 17) (of_string "o");
        EvEnd (dl 8 18) (sl 9 18) (of_string "all characters");
        EvBegin (dl 8 18) (sl 9 18) (of_string "all characters");
        EvToken (dl 16 18) (sl 9 18) (of_string "r");
        EvEnd (dl 8 18) (sl 9 19) (of_string "all characters");
        EvBegin (dl 8 18) (sl 9 19) (of_string "all characters");
        EvToken (dl 16 18) (sl 9 19) (of_string "l");
        EvEnd (dl 8 18) (sl 9 20) (of_string "all characters");
        EvBegin (dl 8 18) (sl 9 20) (of_string "all characters");
        EvToken (dl 16 18) (sl 9 20) (of_string "d");
        EvEnd (dl 8 18) (sl 9 21) (of_string "all characters");
        EvBegin (dl 8 18) (sl 9 21) (of_string "all characters");
        EvToken (dl 16 18) (sl 9 21) (of_string "!");
        EvEnd (dl 8 18) (sl 9 22) (of_string "all characters");
        EvToken (dl 8 42) (sl 9 22) (of_string """");
        EvEnd (dl 9 58) (sl 9 23) (of_string "string");
        EvEnd (dl 4 5) (sl 9 23) (of_string "assignment");
        EvToken (dl 4 17) (sl 9 23) (of_string ";");
        EvBegin (dl 4 22) (sl 9 24) (of_string "white space");
        EvToken (dl 15 15) (sl 9 24) (of_string "
");
        EvEnd (dl 4 22) (sl 10 1) (of_string "white space");
        EvToken (dl 5 3) (sl 10 1) (of_string "END.");
        EvEnd (dl 2 1) (sl 10 5) (of_string "program")].
Proof. vm_compute. reflexivity. Qed.

Example lexer_incorrect_1 : parse_err_at (of_string "= 'ABC'") 1 1 = true.
Proof. vm_compute. reflexivity. Qed.

Example lexer_incorrect_2 : parse_err_at (of_string "a = ''") 1 5 = true.
Proof. vm_compute. reflexivity. Qed.

Example lexer_incorrect_3 : parse_err_at (of_string "abc") 1 4 = true.
Proof. vm_compute. reflexivity. Qed.

Example lexer_incorrect_4 : parse_err_at (of_string "abc;") 1 4 = true.
Proof. vm_compute. reflexivity. Qed.

Example lexer_incorrect_5 : parse_err_at (of_string "abc,") 1 4 = true.
Proof. vm_compute. reflexivity. Qed.

Example lexer_incorrect_6 : parse_err_at (of_string "a = 'a' = 'A';") 1 9 = true.
Proof. vm_compute. reflexivity. Qed.

Example lexer_incorrect_7 : parse_err_at (of_string "a = 'A' * 12;") 1 9 = true.
Proof. vm_compute. reflexivity. Qed.

Example lexer_incorrect_8 : parse_err_at (of_string "a = 3.14 * 'A';") 1 6 = true.
Proof. vm_compute. reflexivity. Qed.

Example lexer_incorrect_9 : parse_err_at (of_string "a = 0x12 * 'A';") 1 6 = true.
Proof. vm_compute. reflexivity. Qed.

Example lexer_incorrect_10 : parse_err_at (of_string "a = 99999999999999999999999999999999999999999999999999999 * 'A';") 1 5 = true.
Proof. vm_compute. reflexivity. Qed.

Example lexer_incorrect_11 : parse_err_at (of_string "a=(*") 1 3 = true.
Proof. vm_compute. reflexivity. Qed.

Example lexer_incorrect_12 : parse_err_at (of_string "a=[") 1 3 = true.
Proof. vm_compute. reflexivity. Qed.

Example lexer_incorrect_13 : parse_err_at (of_string "a={") 1 3 = true.
Proof. vm_compute. reflexivity. Qed.

Example lexer_incorrect_14 : parse_err_at (of_string "a=(/") 1 3 = true.
Proof. vm_compute. reflexivity. Qed.

Example lexer_incorrect_15 : parse_err_at (of_string "a=(:") 1 3 = true.
Proof. vm_compute. reflexivity. Qed.

Example lexer_incorrect_16 : parse_err_at (of_string "a=(") 1 3 = true.
Proof. vm_compute. reflexivity. Qed.

Example lexer_incorrect_17 : parse_err_at (of_string "a=*)") 1 3 = true.
Proof. vm_compute. reflexivity. Qed.

Example lexer_incorrect_18 : parse_err_at (of_string "a=]") 1 3 = true.
Proof. vm_compute. reflexivity. Qed.

Example lexer_incorrect_19 : parse_err_at (of_string "a=}") 1 3 = true.
Proof. vm_compute. reflexivity. Qed.

Example lexer_incorrect_20 : parse_err_at (of_string "a=/)") 1 3 = true.
Proof. vm_compute. reflexivity. Qed.

Example lexer_incorrect_21 : parse_err_at (of_string "a=:)") 1 3 = true.
Proof. vm_compute. reflexivity. Qed.

Example lexer_incorrect_22 : parse_err_at (of_string "a=)") 1 3 = true.
Proof. vm_compute. reflexivity. Qed.

Example lexer_incorrect_23 : parse_err_at (of_string "a=(*);") 1 3 = true.
Proof. vm_compute. reflexivity. Qed.

Example lexer_incorrect_24 : parse_err_at (of_string "a=(:);") 1 3 = true.
Proof. vm_compute. reflexivity. Qed.

Example lexer_incorrect_25 : parse_err_at (of_string "a=(/);") 1 3 = true.
Proof. vm_compute. reflexivity. Qed.

Example tokenizer_correct_1 :
  tokens_in_every_split (of_string "ABC = 'xyz' * 123, [option] | {repeat} (*comment*), (group)-;")
  [TMeta (dl 1 1) (of_string "ABC");
   TGap (dl 1 4) (of_string " ");
   TDefining (dl 1 5);
   TGap (dl 1 6) (of_string " ");
   TTerminal (dl 1 7) (of_string "xyz") 39;
   TGap (dl 1 12) (of_string " ");
   TRepetition (dl 1 13);
   TGap (dl 1 14) (of_string " ");
   TInteger (dl 1 15) (of_string "123");
   TConcat (dl 1 18);
   TGap (dl 1 19) (of_string " ");
   TStartOption (dl 1 20) (of_string "[");
   TMeta (dl 1 21) (of_string "option");
   TEndOption (dl 1 27) (of_string "]");
   TGap (dl 1 28) (of_string " ");
   TDefSep (dl 1 29) 124;
   TGap (dl 1 30) (of_string " ");
   TStartRepeat (dl 1 31) (of_string "{");
   TMeta (dl 1 32) (of_string "repeat");
   TEndRepeat (dl 1 38) (of_string "}");
   TGap (dl 1 39) (of_string " ");
   TComment (dl 1 40) (of_string "comment");
   TConcat (dl 1 51);
   TGap (dl 1 52) (of_string " ");
   TStartGroup (dl 1 53);
   TMeta (dl 1 54) (of_string "group");
   TEndGroup (dl 1 59);
   TExcept (dl 1 60);
   TTerminator (dl 1 61) 59;
   TEOF (dl 1 62)] = true.
Proof. vm_compute. reflexivity. Qed.

Example tokenizer_correct_2 :
  tokens_in_every_split (of_string "ABC='a'/'b'!'c',(/option/),(:repeat:).")
  [TMeta (dl 1 1) (of_string "ABC");
   TDefining (dl 1 4);
   TTerminal (dl 1 5) (of_string "a") 39;
   TDefSep (dl 1 8) 47;
   TTerminal (dl 1 9) (of_string "b") 39;
   TDefSep (dl 1 12) 33;
   TTerminal (dl 1 13) (of_string "c") 39;
   TConcat (dl 1 16);
   TStartOption (dl 1 17) (of_string "(/");
   TMeta (dl 1 19) (of_string "option");
   TEndOption (dl 1 25) (of_string "/)");
   TConcat (dl 1 27);
   TStartRepeat (dl 1 28) (of_string "(:");
   TMeta (dl 1 30) (of_string "repeat");
   TEndRepeat (dl 1 36) (of_string ":)");
   TTerminator (dl 1 38) 46;
   TEOF (dl 1 39)] = true.
Proof. vm_compute. reflexivity. Qed.

Example tokenizer_correct_3 :
  tokens_in_every_split (of_string "A=""a"";B='b';")
  [TMeta (dl 1 1) (of_string "A");
   TDefining (dl 1 2);
   TTerminal (dl 1 3) (of_string "a") 34;
   TTerminator (dl 1 6) 59;
   TMeta (dl 1 7) (of_string "B");
   TDefining (dl 1 8);
   TTerminal (dl 1 9) (of_string "b") 39;
   TTerminator (dl 1 12) 59;
   TEOF (dl 1 13)] = true.
Proof. vm_compute. reflexivity. Qed.

Example tokenizer_correct_4 :
  tokens_in_every_split (of_string "SPECIAL=? Here is special sequence. ?")
  [TMeta (dl 1 1) (of_string "SPECIAL");
   TDefining (dl 1 8);
   TSpecial (dl 1 9) (of_string " Here is special sequence. ");
   TEOF (dl 1 38)] = true.
Proof. vm_compute. reflexivity. Qed.

Example tokenizer_correct_5 :
  tokens_in_every_split (of_string "??")
  [TSpecial (dl 1 1) (of_string "");
   TEOF (dl 1 3)] = true.
Proof. vm_compute. reflexivity. Qed.

Example tokenizer_correct_6 :
  tokens_in_every_split (of_string "COMMENT=(* This is comment. *)")
  [TMeta (dl 1 1) (of_string "COMMENT");
   TDefining (dl 1 8);
   TComment (dl 1 9) (of_string " This is comment. ");
   TEOF (dl 1 31)] = true.
Proof. vm_compute. reflexivity. Qed.

Example tokenizer_correct_7 :
  tokens_in_every_split (of_string "(* This (* is (* comment *). *) *)")
  [TComment (dl 1 1) (of_string " This (* is (* comment *). *) ");
   TEOF (dl 1 35)] = true.
Proof. vm_compute. reflexivity. Qed.

(** Messages: src/lex/test.rs and src/lex/tokenizer/test.rs expect patterns that these
    texts match. *)
Definition err_text (s : str) : str :=
  match parse_str [] s with Err e => render (fun _ => true) (e_msg e) | _ => [] end.
(* src/lex/test.rs:275 *)
Example message_1 : err_text (of_string "= 'ABC'") =
  of_string "meta-identifier expected, but defining-symbol appeared.".
Proof. vm_compute. reflexivity. Qed.
(* src/lex/test.rs:310 *)
Example message_2 : err_text (of_string "a = ''") =
  of_string "The terminal-string must contain one or more terminal-characters.".
Proof. vm_compute. reflexivity. Qed.
(* src/lex/test.rs:321 *)
Example message_3 : err_text (of_string "abc") =
  of_string "meta-identifier or defining-symbol '=' expected, but EOF appeared.".
Proof. vm_compute. reflexivity. Qed.
(* src/lex/test.rs:322 *)
Example message_4 : err_text (of_string "abc;") =
  of_string "meta-identifier or defining-symbol '=' expected, but terminator-symbol appeared.".
Proof. vm_compute. reflexivity. Qed.
(* src/lex/test.rs:323 *)
Example message_5 : err_text (of_string "abc,") =
  of_string "meta-identifier or defining-symbol '=' expected, but concatenate-symbol appeared.".
Proof. vm_compute. reflexivity. Qed.
(* src/lex/test.rs:326 *)
Example message_6 : err_text (of_string "a = 'a' = 'A';") =
  of_string "concatenate-symbol ',', definition-separator-symbol '|', or terminator-symbol ';' expected, but defining-symbol appeared.".
Proof. vm_compute. reflexivity. Qed.
(* src/lex/test.rs:356 *)
Example message_7 : err_text (of_string "a = 'A' * 12;") =
  of_string "concatenate-symbol ',', definition-separator-symbol '|', or terminator-symbol ';' expected, but repetition-symbol appeared.".
Proof. vm_compute. reflexivity. Qed.
(* src/lex/test.rs:359 *)
Example message_8 : err_text (of_string "a = 3.14 * 'A';") =
  of_string "repetition-symbol '*' expected, but terminator-symbol appeared.".
Proof. vm_compute. reflexivity. Qed.
(* src/lex/test.rs:365 *)
Example message_9 : err_text (of_string "a = 0x12 * 'A';") =
  of_string "repetition-symbol '*' expected, but meta-identifier appeared.".
Proof. vm_compute. reflexivity. Qed.
(* src/lex/test.rs:371 *)
Example message_10 : err_text (of_string "a = 99999999999999999999999999999999999999999999999999999 * 'A';") =
  of_string "cannot convert the number of repetitions ""99999999999999999999999999999999999999999999999999999"" to 32-bit integer: number too large to fit in target type".
Proof. vm_compute. reflexivity. Qed.
(* src/lex/test.rs:515 *)
Example message_11 : err_text (of_string "a=(*") =
  of_string "This start-comment-symbol '(*' is not closed.".
Proof. vm_compute. reflexivity. Qed.
(* src/lex/test.rs:516 *)
Example message_12 : err_text (of_string "a=[") =
  of_string "start-option-symbol '[' is not closed.".
Proof. vm_compute. reflexivity. Qed.
(* src/lex/test.rs:517 *)
Example message_13 : err_text (of_string "a={") =
  of_string "start-repeat-symbol '{' is not closed.".
Proof. vm_compute. reflexivity. Qed.
(* src/lex/test.rs:518 *)
Example message_14 : err_text (of_string "a=(/") =
  of_string "start-option-symbol '(/' is not closed.".
Proof. vm_compute. reflexivity. Qed.
(* src/lex/test.rs:519 *)
Example message_15 : err_text (of_string "a=(:") =
  of_string "start-repeat-symbol '(:' is not closed.".
Proof. vm_compute. reflexivity. Qed.
(* src/lex/test.rs:520 *)
Example message_16 : err_text (of_string "a=(") =
  of_string "start-group-symbol '(' is not closed.".
Proof. vm_compute. reflexivity. Qed.
(* src/lex/test.rs:523 *)
Example message_17 : err_text (of_string "a=*)") =
  of_string "end-comment-symbol '*)' is not opened.".
Proof. vm_compute. reflexivity. Qed.
(* src/lex/test.rs:524 *)
Example message_18 : err_text (of_string "a=]") =
  of_string "concatenate-symbol ',', definition-separator-symbol '|', or terminator-symbol ';' expected, but end-option-symbol appeared.".
Proof. vm_compute. reflexivity. Qed.
(* src/lex/test.rs:525 *)
Example message_19 : err_text (of_string "a=}") =
  of_string "concatenate-symbol ',', definition-separator-symbol '|', or terminator-symbol ';' expected, but end-repeat-symbol appeared.".
Proof. vm_compute. reflexivity. Qed.
(* src/lex/test.rs:526 *)
Example message_20 : err_text (of_string "a=/)") =
  of_string "concatenate-symbol ',', definition-separator-symbol '|', or terminator-symbol ';' expected, but end-option-symbol appeared.".
Proof. vm_compute. reflexivity. Qed.
(* src/lex/test.rs:527 *)
Example message_21 : err_text (of_string "a=:)") =
  of_string "concatenate-symbol ',', definition-separator-symbol '|', or terminator-symbol ';' expected, but end-repeat-symbol appeared.".
Proof. vm_compute. reflexivity. Qed.
(* src/lex/test.rs:528 *)
Example message_22 : err_text (of_string "a=)") =
  of_string "concatenate-symbol ',', definition-separator-symbol '|', or terminator-symbol ';' expected, but end-group-symbol appeared.".
Proof. vm_compute. reflexivity. Qed.
(* src/lex/test.rs:531 *)
Example message_23 : err_text (of_string "a=(*);") =
  of_string "An ambiguous start/end-command-symbol: (*)".
Proof. vm_compute. reflexivity. Qed.
(* src/lex/test.rs:532 *)
Example message_24 : err_text (of_string "a=(:);") =
  of_string "An ambiguous start/end-repeat-symbol: (:)".
Proof. vm_compute. reflexivity. Qed.
(* src/lex/test.rs:533 *)
Example message_25 : err_text (of_string "a=(/);") =
  of_string "An ambiguous start/end-option-symbol: (/)".
Proof. vm_compute. reflexivity. Qed.
(* src/lex/tokenizer/test.rs:178 *)
Example message_26 : err_text (of_string "? not completed") =
  of_string "special-sequence is not closed with '?'.".
Proof. vm_compute. reflexivity. Qed.
(* src/lex/tokenizer/test.rs:204 *)
Example message_27 : err_text (of_string "(* This (* isn't *) closed comment.") =
  of_string "This start-comment-symbol '(*' is not closed.".
Proof. vm_compute. reflexivity. Qed.
(* src/lex/tokenizer/test.rs:212 *)
Example message_28 : err_text (of_string "(* This (* isn't *) opened comment. *) *)") =
  of_string "end-comment-symbol '*)' is not opened.".
Proof. vm_compute. reflexivity. Qed.
(* src/lex/tokenizer/test.rs:220 *)
Example message_29 : err_text (of_string "(*)") =
  of_string "An ambiguous start/end-command-symbol: (*)".
Proof. vm_compute. reflexivity. Qed.
