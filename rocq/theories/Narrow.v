(** Model of the lexer and of the reader with integers of the width they have in the
    code: line and column numbers and stream positions are [u64], the depths counted in
    [comment] and [read_enclosed_definition_list] are [i32].  [None] means that an
    addition overflows (a panic in a build with overflow checks, a wrong number
    elsewhere).  The functions are those of Base.v, Tokenizer.v, Lex.v and Io.v except for
    the checks; those without arithmetic of this kind are used as they are.  Indices into
    buffers ([usize]) are not checked: a buffer that long does not exist. *)
From Coq Require Import String List NArith Arith Bool.
From Verif Require Import Base Ident Ast Tokenizer Lex SpecLex Io.
Import ListNotations.
Open Scope N_scope.

Definition u64_limit : N := 18446744073709551616.
Definition i32_limit : N := 2147483648.

(** [x += n] on a [u64], and [x += 1] on an [i32] that is not negative. *)
Definition add64 (x n : N) : option N := if x + n <? u64_limit then Some (x + n) else None.
Definition inc32 (x : N) : option N := if x + 1 <? i32_limit then Some (x + 1) else None.

Definition obind {A B} (m : option A) (f : A -> option B) : option B :=
  match m with Some a => f a | None => None end.
Notation "'let^' x := m 'in' k" := (obind m (fun x => k))
  (at level 200, x pattern, m at level 100, k at level 200).
Definition rbind {A B} (m : option (res A)) (f : A -> option (res B)) : option (res B) :=
  match m with
  | None => None
  | Some (Ok a) => f a
  | Some (Err e) => Some (Err e)
  | Some (Panic p) => Some (Panic p)
  | Some OutOfFuel => Some OutOfFuel
  end.
Notation "'let^?' x := m 'in' k" := (rbind m (fun x => k))
  (at level 200, x pattern, m at level 100, k at level 200).

(** * src/lib.rs *)

(** 326-333  [Location::push]; 294-296 the counters are [u64]. *)
Definition loc_push64 (l : location) (c : char) : option location :=
  if N.eqb c c_lf then let^ n := add64 (l_lines l) 1 in Some (Loc (l_name l) n 1)
  else let^ n := add64 (l_columns l) 1 in Some (Loc (l_name l) (l_lines l) n).

(** 316-325  [Location::push_str], [Location::push_chars]. *)
Fixpoint loc_push_str64 (l : location) (s : str) : option location :=
  match s with
  | [] => Some l
  | c :: r => let^ l' := loc_push64 l c in loc_push_str64 l' r
  end.

(** * src/lex/tokenizer/mod.rs *)

(** 464-494  the loop of [comment]; 460 [nested_depth] is an [i32]. *)
Fixpoint comment_loop32 (prev : char) (depth : N) (location : location) (b : str)
  : option commentres :=
  match b with
  | [] => Some CEnd
  | c :: r =>
      let continue d :=
        let^ location := loc_push64 location c in
        let^ x := comment_loop32 c d location r in
        Some (match x with CFound n => CFound (S n) | x => x end) in
      if (prev =? c_star) && (c =? c_rpar) then
        if depth =? 0 then Some (CFound 0) else continue (depth - 1)
      else if (prev =? c_lpar) && (c =? c_star) then let^ d := inc32 depth in continue d
      else if negb (is_gap c) && negb (is_terminal c) then Some (CBad location c)
      else continue depth
  end.

(** 458-495  [comment]. *)
Definition comment32 (loc : location) (b : str) (flush : bool)
  : option (res (option (token * nat))) :=
  match b with
  | _ :: p :: r =>
      let^ l := loc_push_str64 loc [c_lpar; c_star] in
      let^ x := comment_loop32 p 0 l r in
      Some (match x with
            | CEnd => if flush then Err (Error_ loc MCommentNotClosed) else Ok None
            | CBad l c => Err (Error_ l (MCommentBadChar c))
            | CFound 0 => Panic PIndex
            | CFound (S n) => Ok (Some (TComment loc (firstn n r), (n + 4)%nat))
            end)
  | _ => Some (Panic PIndex)
  end.

(** 263-376  [read_next]; the only counting is done in [comment], which is called after
    an opening parenthesis and a star (311-319). *)
Definition read_next32 (loc : location) (b : str) (flush : bool)
  : option (res (option (token * nat))) :=
  match b with
  | c :: d :: r2 =>
      if (c =? c_lpar) && (d =? c_star) then
        match r2 with
        | e :: _ =>
            if e =? c_rpar then Some (Err (Error_ loc MAmbiguousComment))
            else comment32 loc b flush
        | [] => comment32 loc b flush
        end
      else Some (read_next loc b flush)
  | _ => Some (read_next loc b flush)
  end.

(** 84-95 with 104-125  the loop of [tokenize]. *)
Fixpoint tokenize_loop64 (fuel : nat) (loc : location) (b : str)
  : option (location * res (list token * str)) :=
  match fuel with
  | O => Some (loc, OutOfFuel)
  | S f =>
      match b with
      | [] => Some (loc, Ok ([], []))
      | _ =>
          let^ x := read_next32 loc b false in
          match x with
          | Ok (Some (t, n)) =>
              let^ l := loc_push_str64 loc (firstn n b) in
              let^ y := tokenize_loop64 f l (skipn n b) in
              Some (match y with
                    | (l, Ok (ts, rest)) => (l, Ok (t :: ts, rest))
                    | y => y
                    end)
          | Ok None => Some (loc, Ok ([], b))
          | Err e => Some (loc, Err e)
          | Panic p => Some (loc, Panic p)
          | OutOfFuel => Some (loc, OutOfFuel)
          end
      end
  end.

(** 81-102  [tokenize]. *)
Definition tokenize64 (t : tokenizer) : option (tokenizer * res (list token)) :=
  let^ x := tokenize_loop64 (S (length (tk_buf t))) (tk_loc t) (tk_buf t) in
  Some (match x with
        | (l, Ok (ts, rest)) => (Tk (tk_max t) rest l, Ok ts)
        | (l, Err e) => (Tk (tk_max t) (tk_buf t) l, Err e)
        | (l, Panic p) => (Tk (tk_max t) (tk_buf t) l, Panic p)
        | (l, OutOfFuel) => (Tk (tk_max t) (tk_buf t) l, OutOfFuel)
        end).

(** 52-57  [push_str]; 46-50 [push] is the case of one character. *)
Definition tk_push_str64 (t : tokenizer) (s : str) : option (tokenizer * res (list token)) :=
  match over_capacity t (length s) with
  | Some e => Some (t, Err e)
  | None => tokenize64 (Tk (tk_max t) (tk_buf t ++ s) (tk_loc t))
  end.

(** 64-79  [flush]. *)
Definition tk_flush64 (t : tokenizer) : option (tokenizer * res (list token)) :=
  let^ x := read_next32 (tk_loc t) (tk_buf t) true in
  match x with
  | Ok o =>
      let '(ts, n) := match o with Some (tk, n) => ([tk], n) | None => ([], 0%nat) end in
      let^ l := loc_push_str64 (tk_loc t) (firstn n (tk_buf t)) in
      let t' := Tk (tk_max t) (skipn n (tk_buf t)) l in
      Some (match tk_buf t' with
            | [] => (t', Ok (ts ++ [TEOF (tk_loc t')]))
            | _ => (t', Panic PAssert)
            end)
  | Err e => Some (t, Err e)
  | Panic p => Some (t, Panic p)
  | OutOfFuel => Some (t, OutOfFuel)
  end.

(** * src/lex/mod.rs *)

(** 554-567  the loop of [read_enclosed_definition_list]; 553 [depth] is an [i32]. *)
Fixpoint find_close32 (is_open is_close : token -> bool) (depth : N) (ts : list token)
  : option (option (list token * list token)) :=
  match ts with
  | [] => Some None
  | t :: r =>
      let continue d :=
        let^ x := find_close32 is_open is_close d r in
        Some (match x with Some (a, b) => Some (t :: a, b) | None => None end) in
      if is_open t then let^ d := inc32 depth in continue d
      else if is_close t then
        if depth =? 0 then Some (Some ([], r)) else continue (depth - 1)
      else continue depth
  end.

(** 367-382  [read_definition_list]. *)
Fixpoint read_definition_list32 (fuel : nat) (all ts : list token)
  : option (res definition_list) :=
  match fuel with
  | O => Some OutOfFuel
  | S f =>
      let^? (sd, next) := read_single_definition32 f all ts in
      match skip_trivia next with
      | [] => Some (Ok [sd])
      | t :: r =>
          if is_terminator t then Some (Ok [sd])
          else
            let^? ds := read_definition_list32 f all
                         (match t with TDefSep _ _ => r | _ => t :: r end) in
            Some (Ok (sd :: ds))
      end
  end

(** 384-406  [read_single_definition]. *)
with read_single_definition32 (fuel : nat) (all ts : list token)
  : option (res (single_definition * list token)) :=
  match fuel with
  | O => Some OutOfFuel
  | S f =>
      let^? (tm, next) := read_syntactic_term32 f all ts in
      match skip_trivia next with
      | [] => Some (Ok ([tm], []))
      | t :: r =>
          match t with
          | TConcat _ =>
              let^? (tms, next) := read_single_definition32 f all r in
              Some (Ok (tm :: tms, next))
          | TDefSep _ _ => Some (Ok ([tm], t :: r))
          | _ =>
              if is_terminator t then Some (Ok ([tm], t :: r))
              else Some (Err (Error_ (tok_loc t) (MConcatExpected (tok_name t))))
          end
      end
  end

(** 408-424  [read_syntactic_term]. *)
with read_syntactic_term32 (fuel : nat) (all ts : list token)
  : option (res (term * list token)) :=
  match fuel with
  | O => Some OutOfFuel
  | S f =>
      let^? (fa, next) := read_syntactic_factor32 f all ts in
      match skip_trivia next with
      | TExcept _ :: r =>
          let^? (ex, next) := read_syntactic_factor32 f all r in
          Some (Ok (Term fa (Some ex), next))
      | next => Some (Ok (Term fa None, next))
      end
  end

(** 426-462  [read_syntactic_factor]. *)
with read_syntactic_factor32 (fuel : nat) (all ts : list token)
  : option (res (factor * list token)) :=
  match fuel with
  | O => Some OutOfFuel
  | S f =>
      let ts := skip_trivia ts in
      let^? (n, next) :=
        Some (match ts with
        | TInteger l digits :: r =>
            match parse_u32 digits with
            | None => Err (Error_ l (MRepetitionNumber digits))
            | Some n =>
                match skip_trivia r with
                | [] => Panic PIndex
                | TRepetition _ :: r2 => Ok (n, skip_trivia r2)
                | t :: _ => Err (Error_ (tok_loc t) (MRepetitionExpected (tok_name t)))
                end
            end
        | _ => Ok (1, ts)
        end) in
      let^? (p, next) := read_syntactic_primary32 f all next in
      Some (Ok (Factor n p, next))
  end

(** 464-542  [read_syntactic_primary], with 547-576
    [read_enclosed_definition_list] as [enclosed]. *)
with read_syntactic_primary32 (fuel : nat) (all ts : list token)
  : option (res (primary * list token)) :=
  match fuel with
  | O => Some OutOfFuel
  | S f =>
      let enclosed is_open is_close open r :=
        let^ x := find_close32 is_open is_close 0 r in
        match x with
        | Some (sub, next) =>
            let^? d := read_definition_list32 f sub sub in Some (Ok (d, next))
        | None =>
            Some (Err (Error_ (tok_loc open) (MNotClosed (tok_name open) (tok_debug open))))
        end in
      let followed_by_end_group r :=
        match r with t :: _ => is_end_group t | [] => false end in
      match skip_trivia ts with
      | [] =>
          Some (Ok (PEmpty (match rev all with
                            | t :: _ => tok_loc t
                            | [] => loc_new (of_string "<unknown>")
                            end), []))
      | (TStartOption l s as t) :: r =>
          if str_eqb s [c_lpar; c_slash] && followed_by_end_group r
          then Some (Err (Error_ l MAmbiguousOption))
          else
            let^? (d, next) := enclosed is_start_option is_end_option t r in
            Some (Ok (POptional l d, next))
      | (TStartRepeat l s as t) :: r =>
          if str_eqb s [c_lpar; c_colon] && followed_by_end_group r
          then Some (Err (Error_ l MAmbiguousRepeat))
          else
            let^? (d, next) := enclosed is_start_repeat is_end_repeat t r in
            Some (Ok (PRepeated l d, next))
      | (TStartGroup l as t) :: r =>
          let^? (d, next) := enclosed is_start_group is_end_group t r in
          Some (Ok (PGrouped l d, next))
      | (TMeta l _ :: _) as ts' =>
          let '(id, _, next) := read_meta_identifier ts' in
          Some (Ok (PMeta l id, next))
      | TTerminal l s _ :: r => Some (Ok (PTerminal l s, r))
      | TSpecial l s :: r => Some (Ok (PSpecial l s, r))
      | (t :: _) as ts' => Some (Ok (PEmpty (tok_loc t), ts'))
      end
  end.

(** 326-365  [build_syntax_rule]. *)
Definition build_syntax_rule32 (ts : list token) : option (res (option rule)) :=
  if negb (one_final_terminator ts) then Some (Panic PDebugAssert)
  else
    let '(id, loc, next) := read_meta_identifier ts in
    match skip_trivia next with
    | [] => Some (Panic PIndex)
    | t :: r =>
        match loc with
        | None =>
            Some (if is_terminator t then Ok None
                  else Err (Error_ (tok_loc t) (MMetaExpected (tok_name t))))
        | Some l =>
            if negb (is_defining_symbol t)
            then Some (Err (Error_ (tok_loc t) (MDefiningExpected (tok_name t))))
            else if (match id with [] => true | _ => false end) then Some (Panic PAssert)
            else
              let^? d := read_definition_list32 (rd_fuel ts) ts r in
              Some (Ok (Some (Rule l id d)))
        end
    end.

(** 169-183  [append]. *)
Fixpoint append_loop32 (cur new : list token) : option (list token * res (list rule)) :=
  match new with
  | [] => Some (cur, Ok [])
  | t :: new' =>
      let cur' := cur ++ [t] in
      if is_terminator t then
        let^ x := build_syntax_rule32 cur' in
        match x with
        | Ok o =>
            let^ y := append_loop32 [] new' in
            Some (match y with
                  | (c, Ok rs) => (c, Ok (opt_list o ++ rs))
                  | y => y
                  end)
        | Err e => Some (cur', Err e)
        | Panic p => Some (cur', Panic p)
        | OutOfFuel => Some (cur', OutOfFuel)
        end
      else append_loop32 cur' new'
  end.

Definition lx_append32 (lx : lexer) (tk : tokenizer) (r : res (list token))
  : option (lexer * res (list rule)) :=
  match r with
  | Ok new => let^ (ts, rs) := append_loop32 (lx_tokens lx) new in Some (Lx tk ts, rs)
  | Err e => Some (Lx tk (lx_tokens lx), Err e)
  | Panic p => Some (Lx tk (lx_tokens lx), Panic p)
  | OutOfFuel => Some (Lx tk (lx_tokens lx), OutOfFuel)
  end.

(** 153-156  [push_str]; 142-146 [push]; 158-162 [flush]. *)
Definition lx_push_str64 (lx : lexer) (s : str) : option (lexer * res (list rule)) :=
  let^ (tk, r) := tk_push_str64 (lx_tk lx) s in lx_append32 lx tk r.
Definition lx_push64 (lx : lexer) (c : char) : option (lexer * res (option rule)) :=
  let^ (lx', rs) := lx_push_str64 lx [c] in Some (lx', first_rule rs).
Definition lx_flush64 (lx : lexer) : option (lexer * res (option rule)) :=
  let^ (tk, r) := tk_flush64 (lx_tk lx) in
  let^ (lx', rs) := lx_append32 lx tk r in Some (lx', first_rule rs).

(** 35-43  [parse_str]. *)
Definition parse_str64 (name s : str) : option (res (list rule)) :=
  let^ (lx, r) := lx_push_str64 (lx_new name 0) s in
  let^? rs := Some r in
  let^ (_, r2) := lx_flush64 lx in
  let^? o := Some r2 in
  Some (Ok (rs ++ opt_list o)).

(** A history of calls on a lexer ([hcall], SpecLex.v): what a client observes. *)
Definition hcall64 (lx : lexer) (h : hcall) : option (lexer * hresult) :=
  match h with
  | HPush c => let^ (lx', r) := lx_push64 lx c in Some (lx', ROpt r)
  | HPushStr s => let^ (lx', r) := lx_push_str64 lx s in Some (lx', RList r)
  | HFlush => let^ (lx', r) := lx_flush64 lx in Some (lx', ROpt r)
  | HReset => Some (lx_reset lx, RNone)
  end.
Fixpoint observations64 (lx : lexer) (hs : list hcall) : option (list hresult) :=
  match hs with
  | [] => Some []
  | h :: r =>
      let^ (lx', o) := hcall64 lx h in
      let^ os := observations64 lx' r in
      Some (o :: os)
  end.

(** * src/io/mod.rs *)

(** 233-244  [UnreadBuffer::read]. *)
Definition ub_read64 (n : nat) (u : ubuf) : option (str * ubuf) :=
  let out := firstn n (skipn (ub_next u) (ub_buf u)) in
  let u1 := UB (ub_loc u) (ub_buf u) (ub_next u + length out) (ub_head u) (ub_stack u) in
  let u2 := if ub_remains u1 then u1 else ub_truncate u1 in
  let^ l := loc_push_str64 (ub_loc u2) out in
  Some (out, UB l (ub_buf u2) (ub_next u2) (ub_head u2) (ub_stack u2)).

Section Debug.
Variable debug : bool.

(** 245-256  [append]. *)
Definition ub_append64 (s : str) (u : ubuf) : option (res ubuf) :=
  match ub_stack u with
  | _ :: _ =>
      if debug && ub_remains u then Some (Panic PDebugAssert)
      else
        let^ l := loc_push_str64 (ub_loc u) s in
        Some (Ok (UB l (ub_buf u ++ s) (ub_next u + length s) (ub_head u) (ub_stack u)))
  | [] =>
      if debug && negb (match ub_buf u with [] => true | _ => false end
                        && Nat.eqb (ub_next u) 0)
      then Some (Panic PDebugAssert)
      else
        let^ head := add64 (ub_head u) (N.of_nat (length s)) in
        let^ l := loc_push_str64 (ub_loc u) s in
        Some (Ok (UB l (ub_buf u) (ub_next u) head []))
  end.

(** 258, 265  the position in the stream. *)
Definition ub_position64 (u : ubuf) : option N := add64 (ub_head u) (N.of_nat (ub_next u)).

(** 257-262  [mark]. *)
Definition ub_mark64 (u : ubuf) : option (res (N * ubuf)) :=
  let^ position := ub_position64 u in
  Some (if debug && negb (match ub_stack u with
                          | (p, _) :: _ => N.leb p position
                          | [] => true
                          end)
        then Panic PDebugAssert
        else Ok (position,
                 UB (ub_loc u) (ub_buf u) (ub_next u) (ub_head u)
                    ((position, ub_loc u) :: ub_stack u))).

(** 274-290  [remove_mark]. *)
Definition ub_remove_mark64 (mark : N) (u : ubuf) : option (res (location * ubuf)) :=
  if N.ltb mark (ub_head u) then Some (Err (err_invalid_mark mark u))
  else
    let^ top := add64 (ub_head u) (N.of_nat (length (ub_buf u))) in
    Some (if N.ltb top mark then Err (err_invalid_mark mark u)
          else
            match find_mark mark (ub_stack u) with
            | Some (l, below) => Ok (l, UB (ub_loc u) (ub_buf u) (ub_next u) (ub_head u) below)
            | None => Err (err_invalid_mark mark u)
            end).

(** 263-268  [revert]. *)
Definition ub_revert64 (mark : N) (u : ubuf) : option (res (nat * ubuf)) :=
  let^? (l, u) := ub_remove_mark64 mark u in
  let^ old := ub_position64 u in
  Some (if N.ltb mark (ub_head u) || N.ltb old mark then Panic PUnderflow
        else Ok (N.to_nat (old - mark),
                 UB l (ub_buf u) (N.to_nat (mark - ub_head u)) (ub_head u) (ub_stack u))).

(** Operations on a reader: result and new state, unless something overflows. *)
Definition MO (A : Type) := mreader -> option (res A * mreader).
Definition ret64 {A} (a : A) : MO A := fun r => Some (Ok a, r).
Definition no_fuel64 {A} : MO A := fun r => Some (OutOfFuel, r).
Definition mbind64 {A B} (m : MO A) (f : A -> MO B) : MO B := fun r =>
  match m r with
  | None => None
  | Some (Ok a, r') => f a r'
  | Some (Err e, r') => Some (Err e, r')
  | Some (Panic p, r') => Some (Panic p, r')
  | Some (OutOfFuel, r') => Some (OutOfFuel, r')
  end.
Notation "'let!^' x := m 'in' k" := (mbind64 m (fun x => k))
  (at level 200, x pattern, m at level 100, k at level 200).

Definition with_ub64 {A} (f : ubuf -> option (res (A * ubuf))) : MO A := fun r =>
  let^ x := f (mr_ub r) in
  Some (match x with
        | Ok (a, u) => (Ok a, MR (mr_src r) u)
        | Err e => (Err e, r)
        | Panic p => (Panic p, r)
        | OutOfFuel => (OutOfFuel, r)
        end).

(** 337-351  [MarkableReader::read_chars]. *)
Definition m_read_chars64 (n : nat) : MO str := fun r =>
  if ub_remains (mr_ub r) then
    let^ (out, u) := ub_read64 n (mr_ub r) in Some (Ok out, MR (mr_src r) u)
  else
    match src_read n (mr_src r) with
    | (Ok [], s) => Some (Ok [], MR s (mr_ub r))
    | (Ok out, s) =>
        let^ x := ub_append64 out (mr_ub r) in
        Some (match x with
              | Ok u => (Ok out, MR s u)
              | Err e => (Err e, MR s (mr_ub r))
              | Panic p => (Panic p, MR s (mr_ub r))
              | OutOfFuel => (OutOfFuel, MR s (mr_ub r))
              end)
    | (Err e, s) =>
        Some (Err (Error_ (ub_loc (mr_ub r)) (MWrapped (e_loc e) (e_msg e))), MR s (mr_ub r))
    | (Panic p, s) => Some (Panic p, MR s (mr_ub r))
    | (OutOfFuel, s) => Some (OutOfFuel, MR s (mr_ub r))
    end.

(** 355-369  [location], [mark], [reset_to_mark], [unmark]. *)
Definition m_location64 : MO location := fun r => Some (Ok (ub_loc (mr_ub r)), r).
Definition m_mark64 : MO N := with_ub64 ub_mark64.
Definition m_reset64 (mark : N) : MO nat := with_ub64 (ub_revert64 mark).
Definition m_unmark64 (mark : N) : MO unit :=
  with_ub64 (fun u => let^? (_, u') := ub_remove_mark64 mark u in Some (Ok (tt, u'))).

(** 21-29  [CharReader::read]. *)
Definition m_read64 : MO (option char) :=
  let!^ out := m_read_chars64 1 in
  ret64 (hd_error out).

(** 44-55  [CharReader::read_all]. *)
Fixpoint m_read_all64 (fuel : nat) : MO str :=
  match fuel with
  | O => no_fuel64
  | S f =>
      let!^ out := m_read_chars64 io_buffer in
      match out with
      | [] => ret64 []
      | _ => let!^ rest := m_read_all64 f in ret64 (out ++ rest)
      end
  end.

(** 97-102  [is_eof]. *)
Definition m_is_eof64 : MO bool :=
  let!^ mark := m_mark64 in
  let!^ ch := m_read64 in
  let!^ _ := m_reset64 mark in
  ret64 (match ch with None => true | Some _ => false end).

(** 117-123, 115-126  [prefix_matches]. *)
Fixpoint m_prefix_loop64 (prefix : str) : MO bool :=
  match prefix with
  | [] => ret64 true
  | p :: rest =>
      let!^ ch := m_read64 in
      match ch with
      | Some c => if N.eqb c p then m_prefix_loop64 rest else ret64 false
      | None => ret64 false
      end
  end.
Definition m_prefix_matches64 (prefix : str) : MO bool :=
  let!^ mark := m_mark64 in
  let!^ b := m_prefix_loop64 prefix in
  let!^ _ := m_reset64 mark in
  ret64 b.

(** 144-149, 141-152  [peek]. *)
Fixpoint m_peek_loop64 (n : nat) : MO str :=
  match n with
  | O => ret64 []
  | S n' =>
      let!^ ch := m_read64 in
      match ch with
      | Some c => let!^ rest := m_peek_loop64 n' in ret64 (c :: rest)
      | None => ret64 []
      end
  end.
Definition m_peek64 (n : nat) : MO str :=
  let!^ mark := m_mark64 in
  let!^ s := m_peek_loop64 n in
  let!^ _ := m_reset64 mark in
  ret64 s.

(** 166-173, 163-175  [skip]. *)
Fixpoint m_skip_loop64 (fuel remaining : nat) : MO nat :=
  match fuel with
  | O => no_fuel64
  | S f =>
      match remaining with
      | O => ret64 0%nat
      | _ =>
          let!^ out := m_read_chars64 (Nat.min remaining io_buffer) in
          match out with
          | [] => ret64 remaining
          | _ => m_skip_loop64 f (remaining - length out)%nat
          end
      end
  end.
Definition m_skip64 (n : nat) : MO nat :=
  let!^ remaining := m_skip_loop64 (S n) n in
  ret64 (n - remaining)%nat.
End Debug.

Notation "'let!^' x := m 'in' k" := (mbind64 m (fun x => k))
  (at level 200, x pattern, m at level 100, k at level 200).
