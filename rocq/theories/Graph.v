(** Model of src/parser/graph.rs and of the data types of src/parser/mod.rs. *)
From Coq Require Import String List NArith Arith Bool.
From Verif Require Import Base Ident Tokenizer Ast Lex Syntax.
Import ListNotations.
Open Scope N_scope.

(** src/parser/mod.rs:17-34  [enum Event]. *)
Inductive event :=
| EvToken (def loc : location) (token : str)
| EvBegin (def loc : location) (label : str)
| EvEnd (def loc : location) (label : str).

(** src/parser/mod.rs:80-94  [enum Reaction]. *)
Inductive reaction :=
| RMatch (events : list event)
| RUnmatch
| RForward (id : str).

(** A user supplied [SpecialSequenceScanner] (src/parser/mod.rs:135-138) is
    modelled as a program over the [MarkableCharReader] it is given
    (src/io/mod.rs:92-201): before it answers it may read characters, ask for the
    location and for the end of the text, compare, peek and skip, and place marks.
    It names its own outstanding marks by age, 0 being the newest; going back to a
    mark or releasing it releases the newer ones as well, and marks may be left
    outstanding.  A number it has no mark for is not a program (it does nothing).
    Not represented: [read_chars], whose answers depend on how the reader is
    filled, and the use of marks that are not the program's own. *)
Inductive sprog :=
| SpRet (r : reaction)
| SpFail (e : error)
| SpRead (k : option char -> sprog)
| SpLoc (k : location -> sprog)
| SpEof (k : bool -> sprog)
| SpPrefix (w : str) (k : bool -> sprog)
| SpPeek (n : nat) (k : str -> sprog)
| SpSkip (n : nat) (k : nat -> sprog)
| SpMark (k : sprog)
| SpReset (i : nat) (k : nat -> sprog)
| SpUnmark (i : nat) (k : sprog).

(** Special-sequence scanners: src/parser/mod.rs:120-133 [DefaultScanner],
    141-203 [CharsScanner], 205-251 [RegExScanner] (the regex engine is the
    function [find], giving start and length, in characters, of the leftmost
    match), and user programs. *)
Inductive scanner :=
| ScDefault (content : str)
| ScChars (pred : char -> bool) (min max : option N)
| ScRegex (re : str) (find : str -> option (nat * nat))
| ScUser (symbol : str) (prog : location -> sprog).

(** [SpecialSequenceScanner::symbol]: 126-128, 172-174, 223-225. *)
Definition scanner_symbol (s : scanner) : str :=
  match s with
  | ScDefault c => [c_quest] ++ c ++ [c_quest]
  | ScChars _ _ _ => of_string "?chars?"
  | ScRegex re _ => [c_quest] ++ re ++ [c_quest]
  | ScUser s _ => s
  end.

(** src/parser/graph.rs:39-55  [enum Step]; the scanners of [Step::Scan] are
    those of src/parser/machine.rs (174-336).  The [location] of [Step::Scan] is
    never read and is omitted. *)
Inductive step :=
| StRepetition (min max : N) (sub : nat)
| StOr (subs : list nat)
| StTerminal (s : str)
| StSpecial (sc : scanner)
| StEmpty
| StExcept (factor exc : nat)
| StAlias (id : str).

(** src/parser/graph.rs:16-21  [struct Instruction]. *)
Record instr := Instr {
  i_next : option nat;
  i_symbol : str;
  i_def : location;
  i_step : step }.

(** src/parser/graph.rs:57-61  [struct LexGraph]. *)
Record graph := Graph {
  g_instrs : list instr;
  g_labels : list (str * nat);
  g_names : list (str * str) }.

(** src/parser/graph.rs:290-305  [GraphConfig], a [SpecialSequenceParser]. *)
Definition config := location -> str -> scanner.
Definition default_config : config := fun _ content => ScDefault content.

(** src/parser/mod.rs:253-263  [parallel_notation]. *)
Definition parallel_notation (words : list str) (conj : str) : str :=
  match words with
  | [] => []
  | [w] => w
  | [a; b] => a ++ [c_space] ++ conj ++ [c_space] ++ b
  | _ =>
      sep_concat [c_comma; c_space] (removelast words)
      ++ [c_comma; c_space] ++ conj ++ [c_space] ++ last words []
  end.

(** [{:?}] of a terminal string.  Simplification: only the escapes of printable
    ASCII. *)
Definition debug_str (s : str) : str :=
  [c_dquote]
  ++ flat_map (fun c => if (c =? c_dquote) || (c =? 92) then [92; c] else [c]) s
  ++ [c_dquote].

(** [steps.push(node)], returning the index of the node. *)
Definition push_instr (steps : list instr) (i : instr) : res (list instr * nat) :=
  Ok (steps ++ [i], length steps).

Section Register.
Variable cfg : config.

(** src/parser/graph.rs:209-288  [register_syntactic_primary], with 182-207
    ([register_syntactic_factor]), 155-180 ([register_syntactic_term]), 140-153
    ([register_single_definition]; the terms are registered from the last to the
    first) and 110-138 ([register_definition_list]) inlined in the nested
    recursion; they are restated separately below. *)
Fixpoint reg_primary (p : primary) (steps : list instr) (next : option nat)
  : res (list instr * nat) :=
  let reg_factor (f : factor_ primary) steps next :=
    if f_rep f =? 1 then reg_primary (f_prim f) steps next
    else
      let? (steps, sub) := reg_primary (f_prim f) steps None in
      push_instr steps (Instr next (show_factor f) (p_loc (f_prim f))
                              (StRepetition (f_rep f) (f_rep f) sub)) in
  let reg_term (t : term_ primary) steps next :=
    match t_exc t with
    | Some e =>
        let? (steps, fa) := reg_factor (t_factor t) steps None in
        let? (steps, ex) := reg_factor e steps None in
        push_instr steps (Instr next (show_term t) (p_loc (f_prim (t_factor t)))
                                (StExcept fa ex))
    | None => reg_factor (t_factor t) steps next
    end in
  let reg_terms := fix reg_terms (ts : list (term_ primary)) steps (next : option nat)
      : res (list instr * option nat) :=
    match ts with
    | [] => Ok (steps, next)
    | t :: r =>
        let? (steps, next) := reg_terms r steps next in
        let? (steps, idx) := reg_term t steps next in
        Ok (steps, Some idx)
    end in
  let reg_single (ts : list (term_ primary)) steps next :=
    match ts with
    | [] => Panic PAssert
    | _ =>
        let? (steps, o) := reg_terms ts steps next in
        match o with Some idx => Ok (steps, idx) | None => Panic PUnwrap end
    end in
  let reg_alts := fix reg_alts (ds : list (list (term_ primary))) steps (next : option nat)
      : res (list instr * list nat * list str) :=
    match ds with
    | [] => Ok (steps, [], [])
    | d :: r =>
        let? (steps, idx) := reg_single d steps next in
        match nth_error steps idx with
        | None => Panic PIndex
        | Some i =>
            let? (steps, subs, syms) := reg_alts r steps next in
            Ok (steps, idx :: subs, i_symbol i :: syms)
        end
    end in
  let reg_defs (ds : list (list (term_ primary))) steps next :=
    match ds with
    | [d] => reg_single d steps next
    | _ =>
        let? (steps, subs, syms) := reg_alts ds steps next in
        match rev steps with
        | [] => Panic PUnwrap
        | lst :: _ =>
            push_instr steps (Instr next (parallel_notation syms (of_string "or"))
                                    (i_def lst) (StOr subs))
        end
    end in
  match p with
  | POptional def d =>
      let? (steps, sub) := reg_defs d steps None in
      push_instr steps (Instr next (show_primary p) def (StRepetition 0 1 sub))
  | PRepeated def d =>
      let? (steps, sub) := reg_defs d steps None in
      push_instr steps (Instr next (show_primary p) def (StRepetition 0 u32_max sub))
  | PGrouped _ d => reg_defs d steps None
  | PMeta def id => push_instr steps (Instr next id def (StAlias id))
  | PTerminal def s => push_instr steps (Instr next (debug_str s) def (StTerminal s))
  | PSpecial def s =>
      let sc := cfg def s in
      push_instr steps (Instr next (scanner_symbol sc) def (StSpecial sc))
  | PEmpty def => push_instr steps (Instr next (of_string "EMPTY") def StEmpty)
  end.

(** 182-207  [register_syntactic_factor]. *)
Definition reg_factor (f : factor) (steps : list instr) (next : option nat)
  : res (list instr * nat) :=
  if f_rep f =? 1 then reg_primary (f_prim f) steps next
  else
    let? (steps, sub) := reg_primary (f_prim f) steps None in
    push_instr steps (Instr next (show_factor f) (p_loc (f_prim f))
                            (StRepetition (f_rep f) (f_rep f) sub)).

(** 155-180  [register_syntactic_term]. *)
Definition reg_term (t : term) (steps : list instr) (next : option nat)
  : res (list instr * nat) :=
  match t_exc t with
  | Some e =>
      let? (steps, fa) := reg_factor (t_factor t) steps None in
      let? (steps, ex) := reg_factor e steps None in
      push_instr steps (Instr next (show_term t) (p_loc (f_prim (t_factor t)))
                              (StExcept fa ex))
  | None => reg_factor (t_factor t) steps next
  end.

(** 147-151  the loop of [register_single_definition]. *)
Fixpoint reg_terms (ts : list term) (steps : list instr) (next : option nat)
  : res (list instr * option nat) :=
  match ts with
  | [] => Ok (steps, next)
  | t :: r =>
      let? (steps, next) := reg_terms r steps next in
      let? (steps, idx) := reg_term t steps next in
      Ok (steps, Some idx)
  end.

(** 140-153  [register_single_definition]. *)
Definition reg_single (ts : single_definition) (steps : list instr) (next : option nat)
  : res (list instr * nat) :=
  match ts with
  | [] => Panic PAssert
  | _ =>
      let? (steps, o) := reg_terms ts steps next in
      match o with Some idx => Ok (steps, idx) | None => Panic PUnwrap end
  end.

(** 120-126  the loop of [register_definition_list]. *)
Fixpoint reg_alts (ds : definition_list) (steps : list instr) (next : option nat)
  : res (list instr * list nat * list str) :=
  match ds with
  | [] => Ok (steps, [], [])
  | d :: r =>
      let? (steps, idx) := reg_single d steps next in
      match nth_error steps idx with
      | None => Panic PIndex
      | Some i =>
          let? (steps, subs, syms) := reg_alts r steps next in
          Ok (steps, idx :: subs, i_symbol i :: syms)
      end
  end.

(** 110-138  [register_definition_list]. *)
Definition reg_defs (ds : definition_list) (steps : list instr) (next : option nat)
  : res (list instr * nat) :=
  match ds with
  | [d] => reg_single d steps next
  | _ =>
      let? (steps, subs, syms) := reg_alts ds steps next in
      match rev steps with
      | [] => Panic PUnwrap
      | lst :: _ =>
          push_instr steps (Instr next (parallel_notation syms (of_string "or"))
                                  (i_def lst) (StOr subs))
      end
  end.

(** 68-85  the loop of [LexGraph::compile]. *)
Fixpoint compile_rules (sy : syntax) (rules : list rule) (g : graph) : res graph :=
  match rules with
  | [] => Ok g
  | r :: rest =>
      let id := keyed (r_id r) in
      match canonical_name sy (r_id r) with
      | None => Panic PUnwrap
      | Some name =>
          let? (steps, idx) := reg_defs (r_defs r) (g_instrs g) None in
          let labels := insert id idx (g_labels g) in
          let alias := Instr None name (r_loc r) (StAlias name) in
          compile_rules sy rest
            (Graph (steps ++ [alias])
                   (insert (36 :: id) (length steps) labels)
                   (insert id name (g_names g)))
      end
  end.

(** 64-91  [LexGraph::compile]. *)
Definition compile (sy : syntax) : res graph :=
  compile_rules sy (sy_rules sy) (Graph [] [] []).

End Register.

(** 93-103  [canonical_name], [index_of_label]. *)
Definition g_canonical (g : graph) (id : str) : option str := lookup (keyed id) (g_names g).
Definition g_label (g : graph) (id : str) : option nat := lookup (keyed id) (g_labels g).
