(** Model of src/lex/mod.rs in a release build, where [debug_assert!] does nothing.  The other
    debug assertions of the lexer (src/lex/tokenizer/mod.rs 87-90, 108-111 and 270,
    src/lex/mod.rs 553) can not fire: Tokenizer.v and Lex.v have no case for them. *)
From Coq Require Import String List NArith Arith Bool.
From Verif Require Import Base Tokenizer Ast Lex.
Import ListNotations.

(** 326-365  [build_syntax_rule] without 329-333. *)
Definition build_syntax_rule_release (ts : list token) : res (option rule) :=
  let '(id, loc, next) := read_meta_identifier ts in
  match skip_trivia next with
  | [] => Panic PIndex
  | t :: r =>
      match loc with
      | None =>
          if is_terminator t then Ok None
          else Err (Error_ (tok_loc t) (MMetaExpected (tok_name t)))
      | Some l =>
          if negb (is_defining_symbol t)
          then Err (Error_ (tok_loc t) (MDefiningExpected (tok_name t)))
          else if (match id with [] => true | _ => false end) then Panic PAssert
          else
            let? d := read_definition_list (rd_fuel ts) ts r in
            Ok (Some (Rule l id d))
      end
  end.

(** 169-183  [append]: the tokens kept and the rules completed. *)
Fixpoint append_loop_release (cur new : list token) : list token * res (list rule) :=
  match new with
  | [] => (cur, Ok [])
  | t :: new' =>
      let cur' := cur ++ [t] in
      if is_terminator t then
        match build_syntax_rule_release cur' with
        | Ok o =>
            match append_loop_release [] new' with
            | (c, Ok rs) => (c, Ok (opt_list o ++ rs))
            | x => x
            end
        | Err e => (cur', Err e)
        | Panic p => (cur', Panic p)
        | OutOfFuel => (cur', OutOfFuel)
        end
      else append_loop_release cur' new'
  end.

Definition lx_append_release (lx : lexer) (tk : tokenizer) (r : res (list token))
  : lexer * res (list rule) :=
  match r with
  | Ok new => let '(ts, rs) := append_loop_release (lx_tokens lx) new in (Lx tk ts, rs)
  | Err e => (Lx tk (lx_tokens lx), Err e)
  | Panic p => (Lx tk (lx_tokens lx), Panic p)
  | OutOfFuel => (Lx tk (lx_tokens lx), OutOfFuel)
  end.

(** 153-156  [push_str]. *)
Definition lx_push_str_release (lx : lexer) (s : str) : lexer * res (list rule) :=
  let '(tk, r) := tk_push_str (lx_tk lx) s in lx_append_release lx tk r.

(** 142-146  [push]. *)
Definition lx_push_release (lx : lexer) (c : char) : lexer * res (option rule) :=
  let '(tk, r) := tk_push (lx_tk lx) c in
  let '(lx', rs) := lx_append_release lx tk r in (lx', first_rule rs).

(** 158-162  [flush]. *)
Definition lx_flush_release (lx : lexer) : lexer * res (option rule) :=
  let '(tk, r) := tk_flush (lx_tk lx) in
  let '(lx', rs) := lx_append_release lx tk r in (lx', first_rule rs).

(** 35-43  [parse_str]. *)
Definition parse_str_release (name s : str) : res (list rule) :=
  let '(lx, r) := lx_push_str_release (lx_new name 0) s in
  let? rs := r in
  let '(_, r2) := lx_flush_release lx in
  let? o := r2 in
  Ok (rs ++ opt_list o).
