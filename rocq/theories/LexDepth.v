(** How deep the calls of the recursive descent of src/lex/mod.rs stand inside each
    other when an EBNF text is read.  Every depth follows the function it is named
    after in [Lex.v]; the rounds of a loop stand beside each other.  Calls that end
    without calling a function of the descent ([skip_comment_or_gap_separator],
    [read_meta_identifier], the locations and names of tokens) are not counted. *)
From Coq Require Import String List NArith Arith Bool.
From Verif Require Import Base Ast Tokenizer Lex SpecLex.
Import ListNotations.
Open Scope nat_scope.

(** 367-382  [read_definition_list]. *)
Fixpoint dl_deep (fuel : nat) (all ts : list token) : nat :=
  match fuel with
  | O => 0
  | S f =>
      Nat.max (1 + sd_deep f all ts)
      match read_single_definition f all ts with
      | Ok (_, next) =>
          match skip_trivia next with
          | [] => 0
          | t :: r =>
              if is_terminator t then 0
              else dl_deep f all (match t with TDefSep _ _ => r | _ => t :: r end)
          end
      | _ => 0
      end
  end

(** 384-406  [read_single_definition]. *)
with sd_deep (fuel : nat) (all ts : list token) : nat :=
  match fuel with
  | O => 0
  | S f =>
      Nat.max (1 + term_deep f all ts)
      match read_syntactic_term f all ts with
      | Ok (_, next) =>
          match skip_trivia next with
          | TConcat _ :: r => sd_deep f all r
          | _ => 0
          end
      | _ => 0
      end
  end

(** 408-424  [read_syntactic_term]. *)
with term_deep (fuel : nat) (all ts : list token) : nat :=
  match fuel with
  | O => 0
  | S f =>
      1 + Nat.max (factor_deep f all ts)
          match read_syntactic_factor f all ts with
          | Ok (_, next) =>
              match skip_trivia next with
              | TExcept _ :: r => factor_deep f all r
              | _ => 0
              end
          | _ => 0
          end
  end

(** 426-462  [read_syntactic_factor]. *)
with factor_deep (fuel : nat) (all ts : list token) : nat :=
  match fuel with
  | O => 0
  | S f =>
      1 + match skip_trivia ts with
          | TInteger _ digits :: r =>
              match parse_u32 digits with
              | None => 0
              | Some _ =>
                  match skip_trivia r with
                  | TRepetition _ :: r2 => primary_deep f all (skip_trivia r2)
                  | _ => 0
                  end
              end
          | ts' => primary_deep f all ts'
          end
  end

(** 464-542  [read_syntactic_primary]; 547-576 [read_enclosed_definition_list] is a
    call of its own. *)
with primary_deep (fuel : nat) (all ts : list token) : nat :=
  match fuel with
  | O => 0
  | S f =>
      let enclosed is_open is_close r :=
        1 + match find_close is_open is_close 0 r with
            | Some (sub, _) => dl_deep f sub sub
            | None => 0
            end in
      let followed_by_end_group r :=
        match r with t :: _ => is_end_group t | [] => false end in
      1 + match skip_trivia ts with
          | TStartOption _ s :: r =>
              if str_eqb s [c_lpar; c_slash] && followed_by_end_group r then 0
              else enclosed is_start_option is_end_option r
          | TStartRepeat _ s :: r =>
              if str_eqb s [c_lpar; c_colon] && followed_by_end_group r then 0
              else enclosed is_start_repeat is_end_repeat r
          | TStartGroup _ :: r => enclosed is_start_group is_end_group r
          | _ => 0
          end
  end.

(** 326-365  [build_syntax_rule]. *)
Definition build_deep (ts : list token) : nat :=
  let '(id, loc, next) := read_meta_identifier ts in
  1 + match skip_trivia next with
      | [] => 0
      | t :: r =>
          match loc with
          | None => 0
          | Some _ => if is_defining_symbol t then dl_deep (rd_fuel ts) ts r else 0
          end
      end.

(** 169-183  [append]. *)
Fixpoint append_deep (cur new : list token) : nat :=
  match new with
  | [] => 0
  | t :: new' =>
      if is_terminator t then
        Nat.max (build_deep (cur ++ [t]))
        match build_syntax_rule (cur ++ [t]) with
        | Ok _ => append_deep [] new'
        | _ => 0
        end
      else append_deep (cur ++ [t]) new'
  end.
Definition lx_append_deep (lx : lexer) (r : res (list token)) : nat :=
  match r with Ok new => append_deep (lx_tokens lx) new | _ => 0 end.

(** 142-156  [push], [push_str]; 158-162 [flush]. *)
Definition call_deep (lx : lexer) (f : fragment) : nat :=
  lx_append_deep lx (snd (tk_push_str (lx_tk lx) (frag_text f))).
Definition flush_deep (lx : lexer) : nat := lx_append_deep lx (snd (tk_flush (lx_tk lx))).

(** A list of fragments and the [flush] after it, up to the first error. *)
Fixpoint frags_deep (lx : lexer) (fs : list fragment) : nat :=
  match fs with
  | [] => flush_deep lx
  | f :: fs' =>
      Nat.max (call_deep lx f)
      match call lx f with
      | (lx', Ok _) => frags_deep lx' fs'
      | _ => 0
      end
  end.
