(** What reading an EBNF text costs: how many characters and tokens the code of
    src/lex looks at or moves.  Every count follows the loops of the function it
    is named after in [Tokenizer.v] or [Lex.v], and takes the results of that
    function to know where its loops go.  Copying the text of a token into a
    [String] is not counted: it is at most the characters [move_location] walks
    over, which are. *)
From Coq Require Import String List NArith Arith Bool.
From Verif Require Import Base Ast Tokenizer Lex.
Import ListNotations.
Open Scope nat_scope.

(** ** src/lex/tokenizer/mod.rs *)

(** 384-396 and 424-436  the characters looked at before the closing quote is
    found, a character is refused or the buffer ends. *)
Fixpoint scan_cost (close : char) (allowed : char -> bool) (b : str) : nat :=
  match b with
  | [] => 0
  | c :: r =>
      S (if (c =? close)%N then 0
         else if negb (allowed c) then 0
         else scan_cost close allowed r)
  end.

(** 464-494  the characters the loop of [comment] looks at. *)
Fixpoint comment_cost (prev : char) (depth : nat) (b : str) : nat :=
  match b with
  | [] => 0
  | c :: r =>
      S (if (prev =? c_star)%N && (c =? c_rpar)%N then
           match depth with
           | O => 0
           | S d => comment_cost c d r
           end
         else if (prev =? c_lpar)%N && (c =? c_star)%N then comment_cost c (S depth) r
         else if negb (is_gap c) && negb (is_terminal c) then 0
         else comment_cost c depth r)
  end.

(** 497-507  the characters [read_while] looks at. *)
Fixpoint while_cost (p : char -> bool) (b : str) : nat :=
  match b with
  | [] => 0
  | c :: r => S (if p c then while_cost p r else 0)
  end.

(** 263-376  the characters [read_next] looks at. *)
Definition one_symbol (c : char) : bool :=
  existsb (N.eqb c) [c_comma; c_eq; c_bar; c_excl; c_semi; c_dot; c_minus; c_rpar;
                     c_lbrk; c_rbrk; c_lbrace; c_rbrace].
Definition next_cost (b : str) (flush : bool) : nat :=
  match b with
  | [] => 0
  | c :: r =>
      1 +
      (if one_symbol c then 0
       else if negb flush && (match r with [] => true | _ => false end) then 0
       else if (c =? c_squote)%N || (c =? c_dquote)%N then scan_cost c is_terminal r
       else if (c =? c_lpar)%N then
         match r with
         | [] => 0
         | d :: r2 =>
             1 + (if (d =? c_star)%N then
                    match r2 with
                    | e :: _ => 1 + (if (e =? c_rpar)%N then 0 else comment_cost d 0 r2)
                    | [] => 0
                    end
                  else 0)
         end
       else if (c =? c_slash)%N || (c =? c_colon)%N || (c =? c_star)%N then
         if flush then 0 else 1
       else if (c =? c_quest)%N then scan_cost c_quest is_special r
       else if is_meta_first c then while_cost is_meta_char r
       else if is_digit c then while_cost is_digit r
       else if is_gap c then while_cost is_gap r
       else 0)
  end.

(** 84-95 with 104-125  the loop of [tokenize]: what [read_next] looks at in
    every round, and the characters of the token [move_location] walks over. *)
Fixpoint loop_cost (fuel : nat) (loc : location) (b : str) : nat :=
  match fuel with
  | O => 0
  | S f =>
      match b with
      | [] => 0
      | _ =>
          next_cost b false +
          match read_next loc b false with
          | Ok (Some (_, n)) => n + loop_cost f (loc_push_str loc (firstn n b)) (skipn n b)
          | _ => 0
          end
      end
  end.

(** 81-102  [tokenize]: the loop, and the characters [drain] moves to the front
    of the buffer (97-100: none when nothing has been read). *)
Definition tokenize_cost (t : tokenizer) : nat :=
  loop_cost (S (length (tk_buf t))) (tk_loc t) (tk_buf t) +
  match tokenize_loop (S (length (tk_buf t))) (tk_loc t) (tk_buf t) with
  | (_, Ok (_, rest)) => if Nat.eqb (length rest) (length (tk_buf t)) then 0 else length rest
  | _ => 0
  end.

(** 52-57  [push_str]: every character of [s] is copied into the buffer. *)
Definition push_cost (t : tokenizer) (s : str) : nat :=
  length s +
  match over_capacity t (length s) with
  | Some _ => 0
  | None => tokenize_cost (Tk (tk_max t) (tk_buf t ++ s) (tk_loc t))
  end.

(** 64-79  [flush]. *)
Definition tk_flush_cost (t : tokenizer) : nat :=
  next_cost (tk_buf t) true +
  match read_next (tk_loc t) (tk_buf t) true with
  | Ok (Some (_, n)) => n + length (skipn n (tk_buf t))
  | _ => 0
  end.

(** ** src/lex/mod.rs *)

(** 612-618  the tokens [skip_comment_or_gap_separator] looks at. *)
Fixpoint skip_cost (ts : list token) : nat :=
  match ts with
  | [] => 0
  | t :: r => S (if is_gap_token t || is_comment t then skip_cost r else 0)
  end.

(** 592-608  the tokens the loop of [read_meta_identifier] looks at. *)
Fixpoint rmi_cost (ts : list token) : nat :=
  match ts with
  | (TMeta _ _ | TGap _ _) :: r => S (rmi_cost r)
  | _ :: _ => 1
  | [] => 0
  end.

(** 587-610  [read_meta_identifier]. *)
Definition meta_cost (ts : list token) : nat := skip_cost ts + rmi_cost (skip_trivia ts).

(** 554-567  the tokens the loop of [read_enclosed_definition_list] looks at. *)
Fixpoint close_cost (is_open is_close : token -> bool) (depth : nat) (ts : list token) : nat :=
  match ts with
  | [] => 0
  | t :: r =>
      S (if is_open t then close_cost is_open is_close (S depth) r
         else if is_close t then
           match depth with
           | O => 0
           | S d => close_cost is_open is_close d r
           end
         else close_cost is_open is_close depth r)
  end.

(** The recursive descent: one for every call and every token looked at. *)

(** 367-382  [read_definition_list]. *)
Fixpoint dl_cost (fuel : nat) (all ts : list token) : nat :=
  match fuel with
  | O => 0
  | S f =>
      1 + sd_cost f all ts +
      match read_single_definition f all ts with
      | Ok (_, next) =>
          skip_cost next +
          match skip_trivia next with
          | [] => 0
          | t :: r =>
              1 + (if is_terminator t then 0
                   else dl_cost f all (match t with TDefSep _ _ => r | _ => t :: r end))
          end
      | _ => 0
      end
  end

(** 384-406  [read_single_definition]. *)
with sd_cost (fuel : nat) (all ts : list token) : nat :=
  match fuel with
  | O => 0
  | S f =>
      1 + term_cost f all ts +
      match read_syntactic_term f all ts with
      | Ok (_, next) =>
          skip_cost next +
          match skip_trivia next with
          | [] => 0
          | t :: r =>
              1 + match t with
                  | TConcat _ => sd_cost f all r
                  | _ => 0
                  end
          end
      | _ => 0
      end
  end

(** 408-424  [read_syntactic_term]. *)
with term_cost (fuel : nat) (all ts : list token) : nat :=
  match fuel with
  | O => 0
  | S f =>
      1 + factor_cost f all ts +
      match read_syntactic_factor f all ts with
      | Ok (_, next) =>
          skip_cost next +
          match skip_trivia next with
          | TExcept _ :: r => 1 + factor_cost f all r
          | _ :: _ => 1
          | [] => 0
          end
      | _ => 0
      end
  end

(** 426-462  [read_syntactic_factor]. *)
with factor_cost (fuel : nat) (all ts : list token) : nat :=
  match fuel with
  | O => 0
  | S f =>
      1 + skip_cost ts +
      match skip_trivia ts with
      | TInteger _ digits :: r =>
          1 + match parse_u32 digits with
              | None => 0
              | Some _ =>
                  skip_cost r +
                  match skip_trivia r with
                  | [] => 0
                  | TRepetition _ :: r2 =>
                      1 + skip_cost r2 + primary_cost f all (skip_trivia r2)
                  | _ :: _ => 1
                  end
              end
      | ts' => 1 + primary_cost f all ts'
      end
  end

(** 464-542  [read_syntactic_primary], with 547-576
    [read_enclosed_definition_list]. *)
with primary_cost (fuel : nat) (all ts : list token) : nat :=
  match fuel with
  | O => 0
  | S f =>
      let enclosed is_open is_close r :=
        close_cost is_open is_close 0 r +
        match find_close is_open is_close 0 r with
        | Some (sub, _) => dl_cost f sub sub
        | None => 0
        end in
      let followed_by_end_group r :=
        match r with t :: _ => is_end_group t | [] => false end in
      1 + skip_cost ts +
      match skip_trivia ts with
      | [] => 0
      | TStartOption _ s :: r =>
          2 + (if str_eqb s [c_lpar; c_slash] && followed_by_end_group r then 0
               else enclosed is_start_option is_end_option r)
      | TStartRepeat _ s :: r =>
          2 + (if str_eqb s [c_lpar; c_colon] && followed_by_end_group r then 0
               else enclosed is_start_repeat is_end_repeat r)
      | TStartGroup _ :: r => 1 + enclosed is_start_group is_end_group r
      | (TMeta _ _ :: _) as ts' => 1 + meta_cost ts'
      | _ :: _ => 1
      end
  end.

(** 326-365  [build_syntax_rule]; the debug assertion of 329-333 is not counted. *)
Definition build_cost (ts : list token) : nat :=
  meta_cost ts +
  let '(_, loc, next) := read_meta_identifier ts in
  skip_cost next +
  match skip_trivia next with
  | [] => 0
  | t :: r =>
      1 + match loc with
          | None => 0
          | Some _ => if is_defining_symbol t then dl_cost (rd_fuel ts) ts r else 0
          end
  end.

(** 169-183  [append]: [new_tokens.remove(0)] moves every other token of
    [new_tokens] one place; the token is pushed; a terminator builds a rule. *)
Fixpoint append_cost (cur new : list token) : nat :=
  match new with
  | [] => 0
  | t :: new' =>
      1 + length new' +
      (if is_terminator t then
         build_cost (cur ++ [t]) +
         match build_syntax_rule (cur ++ [t]) with
         | Ok _ => append_cost [] new'
         | _ => 0
         end
       else append_cost (cur ++ [t]) new')
  end.

Definition lx_append_cost (lx : lexer) (r : res (list token)) : nat :=
  match r with Ok new => append_cost (lx_tokens lx) new | _ => 0 end.

(** 153-156  [push_str]; 142-146 [push] is the case of one character. *)
Definition lx_push_cost (lx : lexer) (s : str) : nat :=
  push_cost (lx_tk lx) s + lx_append_cost lx (snd (tk_push_str (lx_tk lx) s)).

(** 158-162  [flush]. *)
Definition lx_flush_cost (lx : lexer) : nat :=
  tk_flush_cost (lx_tk lx) + lx_append_cost lx (snd (tk_flush (lx_tk lx))).

(** A text pushed in pieces, and the [flush] after the last of them: reading
    stops at the first error. *)
Fixpoint pieces_cost (lx : lexer) (ss : list str) : nat :=
  match ss with
  | [] => lx_flush_cost lx
  | s :: ss' =>
      lx_push_cost lx s +
      match lx_push_str lx s with
      | (lx', Ok _) => pieces_cost lx' ss'
      | _ => 0
      end
  end.

(** 35-43  [parse_str]. *)
Definition parse_str_cost (name s : str) : nat := pieces_cost (lx_new name 0%N) [s].
