(** Model of src/lex/tokenizer/mod.rs. *)
From Coq Require Import String List NArith Arith Bool.
From Verif Require Import Base.
Import ListNotations.
Open Scope N_scope.

(** src/lex/tokenizer/mod.rs:149-204  [enum Token]. *)
Inductive token :=
| TRepetition (l : location)
| TExcept (l : location)
| TConcat (l : location)
| TDefSep (l : location) (c : char)
| TDefining (l : location)
| TTerminator (l : location) (c : char)
| TStartOption (l : location) (s : str)
| TEndOption (l : location) (s : str)
| TStartRepeat (l : location) (s : str)
| TEndRepeat (l : location) (s : str)
| TStartGroup (l : location)
| TEndGroup (l : location)
| TEOF (l : location)
| TMeta (l : location) (s : str)
| TTerminal (l : location) (s : str) (q : char)
| TInteger (l : location) (s : str)
| TComment (l : location) (s : str)
| TSpecial (l : location) (s : str)
| TGap (l : location) (s : str).

(** 206-209  [is_letter_char]. *)
Definition is_letter (c : char) : bool :=
  (97 <=? c) && (c <=? 122) || (65 <=? c) && (c <=? 90).

(** 211-214  [is_decimal_digit_char]. *)
Definition is_digit (c : char) : bool := (48 <=? c) && (c <=? 57).

(** 216-221  [is_terminal_char]. *)
Definition is_terminal (c : char) : bool := (32 <=? c) && (c <? 127).

(** 223-227  [is_other_char]; the constant is " .:!+_%@&#$<>/\^`~". *)
Definition is_other (c : char) : bool :=
  existsb (N.eqb c)
    [32; 46; 58; 33; 43; 95; 37; 64; 38; 35; 36; 60; 62; 47; 92; 94; 96; 126].

(** 229-232  [is_meta_identifier_first_char]; 234-237 [is_meta_identifier_char]. *)
Definition is_meta_first (c : char) : bool := is_letter c.
Definition is_meta_char (c : char) : bool := is_meta_first c || is_digit c.

(** 239-242  [is_special_sequence_char]. *)
Definition is_special (c : char) : bool :=
  (is_terminal c && negb (c =? c_quest)) || is_other c || is_gap c.

(** The result of looking for a closing quote. *)
Inductive scanres :=
| SEnd                  (* the buffer ended first *)
| SBad (c : char)       (* a character that is not allowed *)
| SFound (s : str).     (* the text before the closing character *)

(** 384-396 and 424-436  the loops of [terminal_string] and [special_sequence],
    from [position + 1] on. *)
Fixpoint scan_to (close : char) (allowed : char -> bool) (b : str) : scanres :=
  match b with
  | [] => SEnd
  | c :: r =>
      if c =? close then SFound []
      else if negb (allowed c) then SBad c
      else match scan_to close allowed r with
           | SFound s => SFound (c :: s)
           | x => x
           end
  end.

(** 380-416  [terminal_string]; [b] is the buffer from [position] on. *)
Definition terminal_string (loc : location) (b : str) (flush : bool)
  : res (option (token * nat)) :=
  match b with
  | [] => Panic PIndex
  | quote :: r =>
      match scan_to quote is_terminal r with
      | SBad c => Err (Error_ loc (MTermBadChar c))
      | SEnd => if flush then Err (Error_ loc (MTermNotClosed quote)) else Ok None
      | SFound [] => Err (Error_ loc MTermEmpty)
      | SFound s => Ok (Some (TTerminal loc s quote, (length s + 2)%nat))
      end
  end.

(** 420-451  [special_sequence]. *)
Definition special_sequence (loc : location) (b : str) (flush : bool)
  : res (option (token * nat)) :=
  match b with
  | [] => Panic PIndex
  | _ :: r =>
      match scan_to c_quest is_special r with
      | SBad c => Err (Error_ loc (MSpecBadChar c))
      | SEnd => if flush then Err (Error_ loc MSpecNotClosed) else Ok None
      | SFound s => Ok (Some (TSpecial loc s, (length s + 2)%nat))
      end
  end.

Inductive commentres :=
| CEnd                                  (* the buffer ended first *)
| CBad (l : location) (c : char)        (* a character that is not allowed *)
| CFound (n : nat).                     (* characters before the closing ')' *)

(** 464-494  the loop of [comment]; [prev] is [buffer[end - 1]], [b] the buffer
    from [end] on, [location] the running location.  [nested_depth] never goes
    below 0, so it is a [nat]. *)
Fixpoint comment_loop (prev : char) (depth : nat) (location : location) (b : str)
  : commentres :=
  match b with
  | [] => CEnd
  | c :: r =>
      let continue d :=
        match comment_loop c d (loc_push location c) r with
        | CFound n => CFound (S n)
        | x => x
        end in
      if (prev =? c_star) && (c =? c_rpar) then
        match depth with
        | O => CFound 0
        | S d => continue d
        end
      else if (prev =? c_lpar) && (c =? c_star) then continue (S depth)
      else if negb (is_gap c) && negb (is_terminal c) then CBad location c
      else continue depth
  end.

(** 458-495  [comment]; [b] is the buffer from [position] on.  [CFound n] means
    [end = position + 2 + n]; the comment text is [buffer[position+2..end-1]],
    which is an invalid range (panic) when [n = 0]. *)
Definition comment (loc : location) (b : str) (flush : bool)
  : res (option (token * nat)) :=
  match b with
  | _ :: p :: r =>
      match comment_loop p 0 (loc_push_str loc [c_lpar; c_star]) r with
      | CEnd => if flush then Err (Error_ loc MCommentNotClosed) else Ok None
      | CBad l c => Err (Error_ l (MCommentBadChar c))
      | CFound 0 => Panic PIndex
      | CFound (S n) => Ok (Some (TComment loc (firstn n r), (n + 4)%nat))
      end
  | _ => Panic PIndex
  end.

(** 497-507  [read_while] from [position + 1] on: the number of characters from
    [position] to [end]. *)
Fixpoint span_len (p : char -> bool) (b : str) : nat :=
  match b with
  | c :: r => if p c then S (span_len p r) else O
  | [] => O
  end.
Definition read_while (b : str) (p : char -> bool) (flush : bool) : option nat :=
  let n := span_len p b in
  if negb flush && Nat.eqb n (length b) then None else Some (S n).

Definition tok_ok (t : token) (n : nat) : res (option (token * nat)) :=
  Ok (Some (t, n)).

(** 263-376  [read_next]; [b] is the buffer from [position] on. *)
Definition read_next (loc : location) (b : str) (flush : bool)
  : res (option (token * nat)) :=
  match b with
  | [] => Ok None
  | c :: r =>
      let next_is x := match r with d :: _ => d =? x | [] => false end in
      if c =? c_comma then tok_ok (TConcat loc) 1
      else if c =? c_eq then tok_ok (TDefining loc) 1
      else if (c =? c_bar) || (c =? c_excl) then tok_ok (TDefSep loc c) 1
      else if (c =? c_semi) || (c =? c_dot) then tok_ok (TTerminator loc c) 1
      else if c =? c_minus then tok_ok (TExcept loc) 1
      else if c =? c_rpar then tok_ok (TEndGroup loc) 1
      else if c =? c_lbrk then tok_ok (TStartOption loc [c_lbrk]) 1
      else if c =? c_rbrk then tok_ok (TEndOption loc [c_rbrk]) 1
      else if c =? c_lbrace then tok_ok (TStartRepeat loc [c_lbrace]) 1
      else if c =? c_rbrace then tok_ok (TEndRepeat loc [c_rbrace]) 1
      else if negb flush && (match r with [] => true | _ => false end) then Ok None
      else if (c =? c_squote) || (c =? c_dquote) then terminal_string loc b flush
      else if c =? c_lpar then
        match r with
        | [] => tok_ok (TStartGroup loc) 1
        | d :: r2 =>
            if d =? c_star then
              match r2 with
              | e :: _ =>
                  if e =? c_rpar then Err (Error_ loc MAmbiguousComment)
                  else comment loc b flush
              | [] => comment loc b flush
              end
            else if d =? c_slash then tok_ok (TStartOption loc [c_lpar; c_slash]) 2
            else if d =? c_colon then tok_ok (TStartRepeat loc [c_lpar; c_colon]) 2
            else tok_ok (TStartGroup loc) 1
        end
      else if c =? c_slash then
        if negb flush && next_is c_rpar
        then tok_ok (TEndOption loc [c_slash; c_rpar]) 2
        else tok_ok (TDefSep loc c_slash) 1
      else if c =? c_colon then
        if negb flush && next_is c_rpar
        then tok_ok (TEndRepeat loc [c_colon; c_rpar]) 2
        else Err (Error_ loc MColon)
      else if c =? c_star then
        if negb flush && next_is c_rpar
        then Err (Error_ loc MEndCommentNotOpened)
        else tok_ok (TRepetition loc) 1
      else if c =? c_quest then special_sequence loc b flush
      else if is_meta_first c then
        Ok (option_map (fun n => (TMeta loc (firstn n b), n)) (read_while r is_meta_char flush))
      else if is_digit c then
        Ok (option_map (fun n => (TInteger loc (firstn n b), n)) (read_while r is_digit flush))
      else if is_gap c then
        Ok (option_map (fun n => (TGap loc (firstn n b), n)) (read_while r is_gap flush))
      else Err (Error_ loc (MUndefinedChar c))
  end.

(** 11-20  [struct Tokenizer]. *)
Record tokenizer := Tk { tk_max : N; tk_buf : str; tk_loc : location }.

(** 27-38  [Tokenizer::with_capacity] (the initial capacity of the vector has no
    observable effect). *)
Definition tk_new (name : str) (max : N) : tokenizer := Tk max [] (loc_new name).

(** 41-44  [Tokenizer::reset]. *)
Definition tk_reset (t : tokenizer) : tokenizer :=
  Tk (tk_max t) [] (loc_reset (tk_loc t)).

(** 84-95 with 104-125  the loop of [tokenize] from a position (the rest of the
    buffer) on: the final location, and the tokens with the unread rest.
    [move_location] indexes the buffer; [read_next] never returns an offset past
    its end (proved), so [firstn] is exact. *)
Fixpoint tokenize_loop (fuel : nat) (loc : location) (b : str)
  : location * res (list token * str) :=
  match fuel with
  | O => (loc, OutOfFuel)
  | S f =>
      match b with
      | [] => (loc, Ok ([], []))
      | _ =>
          match read_next loc b false with
          | Ok (Some (t, n)) =>
              match tokenize_loop f (loc_push_str loc (firstn n b)) (skipn n b) with
              | (l, Ok (ts, rest)) => (l, Ok (t :: ts, rest))
              | x => x
              end
          | Ok None => (loc, Ok ([], b))
          | Err e => (loc, Err e)
          | Panic p => (loc, Panic p)
          | OutOfFuel => (loc, OutOfFuel)
          end
      end
  end.

(** 81-102  [tokenize].  On an error the buffer is not drained but the location
    has moved. *)
Definition tokenize (t : tokenizer) : tokenizer * res (list token) :=
  match tokenize_loop (S (length (tk_buf t))) (tk_loc t) (tk_buf t) with
  | (l, Ok (ts, rest)) => (Tk (tk_max t) rest l, Ok ts)
  | (l, Err e) => (Tk (tk_max t) (tk_buf t) l, Err e)
  | (l, Panic p) => (Tk (tk_max t) (tk_buf t) l, Panic p)
  | (l, OutOfFuel) => (Tk (tk_max t) (tk_buf t) l, OutOfFuel)
  end.

(** 127-139  [ensure_capacity]: the error, if any. *)
Definition over_capacity (t : tokenizer) (add : nat) : option error :=
  let have := N.of_nat (length (tk_buf t)) in
  let add := N.of_nat add in
  if (0 <? tk_max t) && (tk_max t <? have + add)
  then Some (Error_ (tk_loc t) (MTooLong have add (tk_max t)))
  else None.

(** 52-57  [push_str]; 46-50 [push] is the case of one character. *)
Definition tk_push_str (t : tokenizer) (s : str) : tokenizer * res (list token) :=
  match over_capacity t (length s) with
  | Some e => (t, Err e)
  | None => tokenize (Tk (tk_max t) (tk_buf t ++ s) (tk_loc t))
  end.
Definition tk_push (t : tokenizer) (c : char) : tokenizer * res (list token) :=
  tk_push_str t [c].

(** 64-79  [flush]. *)
Definition tk_flush (t : tokenizer) : tokenizer * res (list token) :=
  match read_next (tk_loc t) (tk_buf t) true with
  | Ok o =>
      let '(ts, n) := match o with Some (tk, n) => ([tk], n) | None => ([], 0%nat) end in
      let t' := Tk (tk_max t) (skipn n (tk_buf t))
                   (loc_push_str (tk_loc t) (firstn n (tk_buf t))) in
      match tk_buf t' with
      | [] => (t', Ok (ts ++ [TEOF (tk_loc t')]))
      | _ => (t', Panic PAssert)
      end
  | Err e => (t, Err e)
  | Panic p => (t, Panic p)
  | OutOfFuel => (t, OutOfFuel)
  end.
