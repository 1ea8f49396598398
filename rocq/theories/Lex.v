(** Model of src/lex/mod.rs: recursive descent over tokens and the [Lexer]. *)
From Coq Require Import String List NArith Arith Bool.
From Verif Require Import Base Tokenizer Ast.
Import ListNotations.
Open Scope N_scope.

(** 630-652  [Token::info]: location and name. *)
Definition tok_loc (t : token) : location :=
  match t with
  | TRepetition l | TExcept l | TConcat l | TDefSep l _ | TDefining l
  | TTerminator l _ | TStartOption l _ | TEndOption l _ | TStartRepeat l _
  | TEndRepeat l _ | TStartGroup l | TEndGroup l | TEOF l | TMeta l _
  | TTerminal l _ _ | TInteger l _ | TComment l _ | TSpecial l _ | TGap l _ => l
  end.
Definition tok_name (t : token) : str :=
  of_string
    match t with
    | TRepetition _ => "repetition-symbol"
    | TExcept _ => "except-symbol"
    | TConcat _ => "concatenate-symbol"
    | TDefSep _ _ => "definition-separator-symbol"
    | TDefining _ => "defining-symbol"
    | TTerminator _ _ => "terminator-symbol"
    | TStartOption _ _ => "start-option-symbol"
    | TEndOption _ _ => "end-option-symbol"
    | TStartRepeat _ _ => "start-repeat-symbol"
    | TEndRepeat _ _ => "end-repeat-symbol"
    | TStartGroup _ => "start-group-symbol"
    | TEndGroup _ => "end-group-symbol"
    | TMeta _ _ => "meta-identifier"
    | TTerminal _ _ _ => "terminal-string"
    | TInteger _ _ => "integer"
    | TComment _ _ => "comment"
    | TSpecial _ _ => "special-sequence"
    | TGap _ _ => "gap-separator-sequence"
    | TEOF _ => "EOF"
    end%string.

(** 627-629  [Token::debug], only ever called on opening brackets (573). *)
Definition tok_debug (t : token) : str :=
  match t with
  | TStartOption _ s | TStartRepeat _ s => s
  | TStartGroup _ => [c_lpar]
  | _ => []
  end.

(** 653-733  the predicates on tokens. *)
Definition is_defining_symbol t := match t with TDefining _ => true | _ => false end.
Definition is_repetition_symbol t := match t with TRepetition _ => true | _ => false end.
Definition is_except_symbol t := match t with TExcept _ => true | _ => false end.
Definition is_start_option t := match t with TStartOption _ _ => true | _ => false end.
Definition is_end_option t := match t with TEndOption _ _ => true | _ => false end.
Definition is_start_repeat t := match t with TStartRepeat _ _ => true | _ => false end.
Definition is_end_repeat t := match t with TEndRepeat _ _ => true | _ => false end.
Definition is_start_group t := match t with TStartGroup _ => true | _ => false end.
Definition is_end_group t := match t with TEndGroup _ => true | _ => false end.
Definition is_gap_token t := match t with TGap _ _ => true | _ => false end.
Definition is_comment t := match t with TComment _ _ => true | _ => false end.
Definition is_terminator t :=
  match t with TTerminator _ _ | TEOF _ => true | _ => false end.

(** From here on a position in [tokens] is the suffix of [tokens] at that
    position. *)

(** 612-618  [skip_comment_or_gap_separator]. *)
Fixpoint skip_trivia (ts : list token) : list token :=
  match ts with
  | t :: r => if is_gap_token t || is_comment t then skip_trivia r else ts
  | [] => []
  end.

(** [char::is_whitespace] (Unicode White_Space), used by [str::trim]. *)
Definition is_rust_whitespace (c : char) : bool :=
  (9 <=? c) && (c <=? 13) || (c =? 32) || (c =? 133) || (c =? 160) || (c =? 5760)
  || (8192 <=? c) && (c <=? 8202) || (c =? 8232) || (c =? 8233) || (c =? 8239)
  || (c =? 8287) || (c =? 12288).
Fixpoint trim_start (s : str) : str :=
  match s with
  | c :: r => if is_rust_whitespace c then trim_start r else s
  | [] => []
  end.
Definition trim (s : str) : str := rev (trim_start (rev (trim_start s))).

Definition ends_with_space (s : str) : bool :=
  match rev s with c :: _ => c =? c_space | [] => false end.

(** 592-608  the loop of [read_meta_identifier]. *)
Fixpoint rmi_loop (id : str) (loc : option location) (ts : list token)
  : str * option location * list token :=
  match ts with
  | TMeta l s :: r =>
      rmi_loop (id ++ s) (match loc with None => Some l | _ => loc end) r
  | TGap _ _ :: r =>
      rmi_loop (if ends_with_space id then id else id ++ [c_space]) loc r
  | _ => (id, loc, ts)
  end.

(** 587-610  [read_meta_identifier]. *)
Definition read_meta_identifier (ts : list token)
  : str * option location * list token :=
  let '(id, loc, next) := rmi_loop [] None (skip_trivia ts) in (trim id, loc, next).

(** [str::parse::<u32>] on a string of decimal digits: [None] on overflow. *)
Definition u32_max : N := 4294967295.
Definition dec_value (s : str) : N := fold_left (fun n c => 10 * n + (c - 48)) s 0.
Definition parse_u32 (s : str) : option N :=
  let n := dec_value s in if n <=? u32_max then Some n else None.

(** 554-567  the loop of [read_enclosed_definition_list]: the tokens before the
    matching close symbol and those after it. *)
Fixpoint find_close (is_open is_close : token -> bool) (depth : nat) (ts : list token)
  : option (list token * list token) :=
  match ts with
  | [] => None
  | t :: r =>
      let continue d :=
        match find_close is_open is_close d r with
        | Some (a, b) => Some (t :: a, b)
        | None => None
        end in
      if is_open t then continue (S depth)
      else if is_close t then
        match depth with
        | O => Some ([], r)
        | S d => continue d
        end
      else continue depth
  end.

(** The recursive descent.  [all] is the whole slice (its last element gives the
    location of an empty sequence at the end), [ts] the suffix at the current
    position.  [fuel] decreases at every call; [rd_fuel] below is always enough
    (proved). *)

(** 367-382  [read_definition_list]. *)
Fixpoint read_definition_list (fuel : nat) (all ts : list token)
  : res definition_list :=
  match fuel with
  | O => OutOfFuel
  | S f =>
      let? (sd, next) := read_single_definition f all ts in
      match skip_trivia next with
      | [] => Ok [sd]
      | t :: r =>
          if is_terminator t then Ok [sd]
          else
            let? ds := read_definition_list f all
                         (match t with TDefSep _ _ => r | _ => t :: r end) in
            Ok (sd :: ds)
      end
  end

(** 384-406  [read_single_definition]. *)
with read_single_definition (fuel : nat) (all ts : list token)
  : res (single_definition * list token) :=
  match fuel with
  | O => OutOfFuel
  | S f =>
      let? (tm, next) := read_syntactic_term f all ts in
      match skip_trivia next with
      | [] => Ok ([tm], [])
      | t :: r =>
          match t with
          | TConcat _ =>
              let? (tms, next) := read_single_definition f all r in
              Ok (tm :: tms, next)
          | TDefSep _ _ => Ok ([tm], t :: r)
          | _ =>
              if is_terminator t then Ok ([tm], t :: r)
              else Err (Error_ (tok_loc t) (MConcatExpected (tok_name t)))
          end
      end
  end

(** 408-424  [read_syntactic_term]. *)
with read_syntactic_term (fuel : nat) (all ts : list token)
  : res (term * list token) :=
  match fuel with
  | O => OutOfFuel
  | S f =>
      let? (fa, next) := read_syntactic_factor f all ts in
      match skip_trivia next with
      | TExcept _ :: r =>
          let? (ex, next) := read_syntactic_factor f all r in
          Ok (Term fa (Some ex), next)
      | next => Ok (Term fa None, next)
      end
  end

(** 426-462  [read_syntactic_factor].  [tokens[i]] on line 444 is unchecked. *)
with read_syntactic_factor (fuel : nat) (all ts : list token)
  : res (factor * list token) :=
  match fuel with
  | O => OutOfFuel
  | S f =>
      let ts := skip_trivia ts in
      let? (n, next) :=
        match ts with
        | TInteger l digits :: r =>
            match parse_u32 digits with
            | None => Err (Error_ l (MRepetitionNumber digits))
            | Some n =>
                match skip_trivia r with
                | [] => Panic PIndex
                | TRepetition _ :: r2 => Ok (n, skip_trivia r2)
                | t :: _ => Err (Error_ (tok_loc t) (MRepetitionExpected (tok_name t)))
                end
            end
        | _ => Ok (1, ts)
        end in
      let? (p, next) := read_syntactic_primary f all next in
      Ok (Factor n p, next)
  end

(** 464-542  [read_syntactic_primary], with 547-576
    [read_enclosed_definition_list] as [enclosed]. *)
with read_syntactic_primary (fuel : nat) (all ts : list token)
  : res (primary * list token) :=
  match fuel with
  | O => OutOfFuel
  | S f =>
      let enclosed is_open is_close open r :=
        match find_close is_open is_close 0 r with
        | Some (sub, next) =>
            let? d := read_definition_list f sub sub in Ok (d, next)
        | None =>
            Err (Error_ (tok_loc open) (MNotClosed (tok_name open) (tok_debug open)))
        end in
      let followed_by_end_group r :=
        match r with t :: _ => is_end_group t | [] => false end in
      match skip_trivia ts with
      | [] =>
          Ok (PEmpty (match rev all with
                      | t :: _ => tok_loc t
                      | [] => loc_new (of_string "<unknown>")
                      end), [])
      | (TStartOption l s as t) :: r =>
          if str_eqb s [c_lpar; c_slash] && followed_by_end_group r
          then Err (Error_ l MAmbiguousOption)
          else
            let? (d, next) := enclosed is_start_option is_end_option t r in
            Ok (POptional l d, next)
      | (TStartRepeat l s as t) :: r =>
          if str_eqb s [c_lpar; c_colon] && followed_by_end_group r
          then Err (Error_ l MAmbiguousRepeat)
          else
            let? (d, next) := enclosed is_start_repeat is_end_repeat t r in
            Ok (PRepeated l d, next)
      | (TStartGroup l as t) :: r =>
          let? (d, next) := enclosed is_start_group is_end_group t r in
          Ok (PGrouped l d, next)
      | (TMeta l _ :: _) as ts' =>
          let '(id, _, next) := read_meta_identifier ts' in
          Ok (PMeta l id, next)
      | TTerminal l s _ :: r => Ok (PTerminal l s, r)
      | TSpecial l s :: r => Ok (PSpecial l s, r)
      | (t :: _) as ts' => Ok (PEmpty (tok_loc t), ts')
      end
  end.

Definition rd_fuel (ts : list token) : nat := (6 * length ts + 6)%nat.

(** 326-365  [build_syntax_rule].  The debug assertion of 329-333 is modelled as
    a panic (it never fires, proved). *)
Definition one_final_terminator (ts : list token) : bool :=
  match rev ts with
  | t :: r => is_terminator t && negb (existsb is_terminator r)
  | [] => false
  end.
Definition build_syntax_rule (ts : list token) : res (option rule) :=
  if negb (one_final_terminator ts) then Panic PDebugAssert
  else
    let '(id, loc, next) := read_meta_identifier ts in
    match skip_trivia next with
    | [] => Panic PIndex
    | t :: r =>
        match loc with
        | None =>
            if is_terminator t then Ok None
            else Err (Error_ (tok_loc t) (MMetaExpected (tok_name t)))
        | Some l =>
            if negb (is_defining_symbol t)
            then Err (Error_ (tok_loc t) (MDefiningExpected (tok_name t)))
            else if (match id with [] => true | _ => false end) then Panic PAssert
            else
              let? d := read_definition_list (rd_fuel ts) ts r in
              Ok (Some (Rule l id d))
        end
    end.

(** 102-105  [struct Lexer]. *)
Record lexer := Lx { lx_tk : tokenizer; lx_tokens : list token }.

(** 116-140  [Lexer::new] (limit 0), [Lexer::with_capacity]. *)
Definition lx_new (name : str) (max : N) : lexer := Lx (tk_new name max) [].

Definition opt_list {A} (o : option A) : list A :=
  match o with Some a => [a] | None => [] end.

(** 169-183  [append]: the tokens kept and the rules completed. *)
Fixpoint append_loop (cur new : list token) : list token * res (list rule) :=
  match new with
  | [] => (cur, Ok [])
  | t :: new' =>
      let cur' := cur ++ [t] in
      if is_terminator t then
        match build_syntax_rule cur' with
        | Ok o =>
            match append_loop [] new' with
            | (c, Ok rs) => (c, Ok (opt_list o ++ rs))
            | x => x
            end
        | Err e => (cur', Err e)
        | Panic p => (cur', Panic p)
        | OutOfFuel => (cur', OutOfFuel)
        end
      else append_loop cur' new'
  end.

Definition lx_append (lx : lexer) (tk : tokenizer) (r : res (list token))
  : lexer * res (list rule) :=
  match r with
  | Ok new => let '(ts, rs) := append_loop (lx_tokens lx) new in (Lx tk ts, rs)
  | Err e => (Lx tk (lx_tokens lx), Err e)
  | Panic p => (Lx tk (lx_tokens lx), Panic p)
  | OutOfFuel => (Lx tk (lx_tokens lx), OutOfFuel)
  end.

(** 153-156  [push_str]. *)
Definition lx_push_str (lx : lexer) (s : str) : lexer * res (list rule) :=
  let '(tk, r) := tk_push_str (lx_tk lx) s in lx_append lx tk r.

(** [if r.is_empty() { None } else { Some(r.remove(0)) }] *)
Definition first_rule (r : res (list rule)) : res (option rule) :=
  let? rs := r in Ok (hd_error rs).

(** 142-146  [push]. *)
Definition lx_push (lx : lexer) (c : char) : lexer * res (option rule) :=
  let '(tk, r) := tk_push (lx_tk lx) c in
  let '(lx', rs) := lx_append lx tk r in (lx', first_rule rs).

(** 158-162  [flush]. *)
Definition lx_flush (lx : lexer) : lexer * res (option rule) :=
  let '(tk, r) := tk_flush (lx_tk lx) in
  let '(lx', rs) := lx_append lx tk r in (lx', first_rule rs).

(** 164-167  [reset]. *)
Definition lx_reset (lx : lexer) : lexer := Lx (tk_reset (lx_tk lx)) [].

(** 35-43  [parse_str]. *)
Definition parse_str (name s : str) : res (list rule) :=
  let '(lx, r) := lx_push_str (lx_new name 0) s in
  let? rs := r in
  let '(_, r2) := lx_flush lx in
  let? o := r2 in
  Ok (rs ++ opt_list o).
