(** Model of src/validity/mod.rs and of [Syntax] in src/lib.rs. *)
From Coq Require Import String List NArith Arith Bool.
From Verif Require Import Base Ident Tokenizer Ast Lex.
Import ListNotations.

(** [HashMap<String, A>]: an association list, [insert] shadows. *)
Fixpoint lookup {A} (k : str) (m : list (str * A)) : option A :=
  match m with
  | [] => None
  | (k', a) :: r => if str_eqb k k' then Some a else lookup k r
  end.
Definition insert {A} (k : str) (a : A) (m : list (str * A)) : list (str * A) :=
  (k, a) :: m.

(** src/lib.rs:182-186  [struct Syntax]. *)
Record syntax := Syntax_ {
  sy_names : list (str * str);
  sy_index : list (str * nat);
  sy_rules : list rule }.

(** src/validity/mod.rs:12-27  the loop of [new_syntax] over the rules not yet
    registered; [all] is the whole vector, [i] the current index. *)
Fixpoint register_rules (all : list rule) (i : nat) (rest : list rule)
    (names : list (str * str)) (index : list (str * nat))
  : res (list (str * str) * list (str * nat)) :=
  match rest with
  | [] => Ok (names, index)
  | r :: rest' =>
      let id := keyed (r_id r) in
      let canonical := normalized (r_id r) in
      if negb (str_eqb canonical (r_id r)) then Panic PAssert
      else
        match lookup id names with
        | Some _ =>
            match lookup id index with
            | None => Panic PUnwrap
            | Some j =>
                match nth_error all j with
                | None => Panic PIndex
                | Some d =>
                    Err (Error_ (r_loc r)
                           (MDuplicate (r_id r) (l_lines (r_loc d)) (l_columns (r_loc d))))
                end
            end
        | None =>
            register_rules all (S i) rest' (insert id canonical names) (insert id i index)
        end
  end.

(** src/validity/mod.rs:42-56  [is_def]. *)
Definition is_def {A} (index : list (str * A)) (p : primary) : res unit :=
  match p with
  | PMeta l id =>
      match lookup (keyed id) index with
      | Some _ => Ok tt
      | None => Err (Error_ l (MUndefinedMeta id))
      end
  | _ => Ok tt
  end.

(** [for x in xs { f(x)? }] *)
Fixpoint try_each {A} (f : A -> res unit) (xs : list A) : res unit :=
  match xs with
  | [] => Ok tt
  | x :: r => let? _ := f x in try_each f r
  end.

(** src/validity/mod.rs:57-67  [is_defined]. *)
Definition is_defined {A} (index : list (str * A)) (d : definition_list) : res unit :=
  try_each (try_each (fun t =>
    let? _ := is_def index (f_prim (t_factor t)) in
    match t_exc t with
    | Some e => is_def index (f_prim e)
    | None => Ok tt
    end)) d.

(** src/validity/mod.rs:38-72  [make_sure_all_meta_identifiers_are_defined]. *)
Definition all_defined {A} (rules : list rule) (index : list (str * A)) : res unit :=
  try_each (fun r => is_defined index (r_defs r)) rules.

(** src/validity/mod.rs:9-34  [new_syntax], src/lib.rs:195 [Syntax::new]. *)
Definition new_syntax (rules : list rule) : res syntax :=
  let? (names, index) := register_rules rules 0 rules [] [] in
  let? _ := all_defined rules index in
  Ok (Syntax_ names index rules).

(** src/lib.rs:199-202  [Syntax::canonical_name]. *)
Definition canonical_name (s : syntax) (id : str) : option str :=
  lookup (keyed id) (sy_names s).

(** src/lib.rs:204-210  [Syntax::rules], [Syntax::rule]. *)
Definition syntax_rule (s : syntax) (i : nat) : option rule := nth_error (sy_rules s) i.

(** src/lib.rs:269-272  [Syntax::get_syntax_rule]; the index is unchecked. *)
Definition get_syntax_rule (s : syntax) (id : str) : res (option rule) :=
  match lookup (keyed id) (sy_index s) with
  | None => Ok None
  | Some i => match nth_error (sy_rules s) i with
              | Some r => Ok (Some r)
              | None => Panic PIndex
              end
  end.
