(** Rules, events and errors that correspond to one another. *)
From Coq Require Import String List NArith Arith Bool.
From Verif Require Import Base Ast Graph SpecText SpecSyntax SpecParse.
Import ListNotations.
Open Scope nat_scope.

(** ** Trees of the same shape: locations related by [L], names of references by [N] *)
Section Trees.
Variable L : location -> location -> Prop.
Variable N : str -> str -> Prop.
Inductive like : primary -> primary -> Prop :=
| lk_optional : forall l l' d d', L l l' -> like_defs d d' -> like (POptional l d) (POptional l' d')
| lk_repeated : forall l l' d d', L l l' -> like_defs d d' -> like (PRepeated l d) (PRepeated l' d')
| lk_grouped : forall l l' d d', L l l' -> like_defs d d' -> like (PGrouped l d) (PGrouped l' d')
| lk_meta : forall l l' id id', L l l' -> N id id' -> like (PMeta l id) (PMeta l' id')
| lk_terminal : forall l l' w, L l l' -> like (PTerminal l w) (PTerminal l' w)
| lk_special : forall l l' c, L l l' -> like (PSpecial l c) (PSpecial l' c)
| lk_empty : forall l l', L l l' -> like (PEmpty l) (PEmpty l')
with like_defs : definition_list -> definition_list -> Prop :=
| lk_defs_nil : like_defs [] []
| lk_defs_cons : forall s s' d d', like_seq s s' -> like_defs d d' -> like_defs (s :: d) (s' :: d')
with like_seq : list term -> list term -> Prop :=
| lk_seq_nil : like_seq [] []
| lk_seq_cons : forall t t' s s', like_term t t' -> like_seq s s' -> like_seq (t :: s) (t' :: s')
with like_term : term -> term -> Prop :=
| lk_term : forall n p p', like p p' -> like_term (Term (Factor n p) None) (Term (Factor n p') None)
| lk_term_except : forall n p p' m q q', like p p' -> like q q' ->
    like_term (Term (Factor n p) (Some (Factor m q))) (Term (Factor n p') (Some (Factor m q'))).
Definition like_rule (r r' : rule) : Prop :=
  L (r_loc r) (r_loc r') /\ N (r_id r) (r_id r') /\ like_defs (r_defs r) (r_defs r').
End Trees.

(** ** Events and errors: labels related by [B], what is expected by [X], the names of
    forwarding by [F] *)
Section Results.
Variable L : location -> location -> Prop.
Variables B X F : str -> str -> Prop.
Inductive like_event : event -> event -> Prop :=
| le_token : forall d d' l w, L d d' -> like_event (EvToken d l w) (EvToken d' l w)
| le_begin : forall d d' l b b', L d d' -> B b b' -> like_event (EvBegin d l b) (EvBegin d' l b')
| le_end : forall d d' l b b', L d d' -> B b b' -> like_event (EvEnd d l b) (EvEnd d' l b').
Inductive like_error : error -> error -> Prop :=
| lx_same : forall e, like_error e e
| lx_expected : forall l x x' a, X x x' -> like_error (Error_ l (MExpected x a)) (Error_ l (MExpected x' a))
| lx_forward : forall l id id' x x' d d', F id id' -> X x x' -> L d d' ->
    like_error (Error_ l (MNoSuchForward id x d)) (Error_ l (MNoSuchForward id' x' d')).
Definition like_events (a b : list event) : Prop := Forall2 like_event a b.
(** Corresponding answers of [parse]. *)
Definition like_answer (a b : res (list event)) : Prop :=
  match a, b with
  | Ok x, Ok y => like_events x y
  | Err x, Err y => like_error x y
  | Panic _, Panic _ => True
  | _, _ => False
  end.
(** ... and of scanners. *)
Definition like_sres (a b : sres) : Prop :=
  match a, b with
  | SMatch s x, SMatch s' y => s = s' /\ like_events x y
  | SUnmatch, SUnmatch => True
  | SForward id s, SForward id' s' => s = s' /\ F id id'
  | SFail e, SFail e' => like_error e e'
  | _, _ => False
  end.
End Results.

Definition any {A} (a b : A) : Prop := True.
Definition none {A} (a b : A) : Prop := False.
(** Equal answers; panics are not told apart. *)
Definition same_answer (a b : res (list event)) : Prop :=
  match a, b with Panic _, Panic _ => True | _, _ => a = b end.
(** Answers equal up to the locations of definitions. *)
Definition same_but_definitions : res (list event) -> res (list event) -> Prop := like_answer any eq eq eq.

(** The scanner of a special sequence does not depend on where the sequence stands. *)
Definition placeless (cfg : config) : Prop := forall l l' c,
  scanner_symbol (cfg l c) = scanner_symbol (cfg l' c) /\
  forall s a, scanned (cfg l c) l s a -> exists b, scanned (cfg l' c) l' s b /\ like_sres any eq eq eq a b.

(** The rules that parsing [id] can come by (without forwarding). *)
Inductive reached (rs : list rule) (id : str) : rule -> Prop :=
| rc_start : forall r, names rs id r -> reached rs id r
| rc_more : forall r l x r', reached rs id r -> refers_deep r l x -> names rs x r' -> reached rs id r'.

(** [rs'] is [rs] with every name [a] replaced by [f a]. *)
Definition renamed (f : str -> str) (rs rs' : list rule) : Prop :=
  Forall2 (like_rule eq (fun a b => b = f a)) rs rs'.
(** The names in [rs] of rules and references. *)
Definition mentioned (rs : list rule) (id : str) : Prop :=
  exists r, In r rs /\ (r_id r = id \/ exists l, refers_deep r l id).
(** Scanners that hand out tokens only. *)
Definition token_scanners (cfg : config) : Prop := forall l c s s' evs,
  scanned (cfg l c) l s (SMatch s' evs) -> Forall (fun e => exists d a w, e = EvToken d a w) evs.
(** What errors say is expected, before and after renaming: the same, or what corresponding
    exceptions or choices are called. *)
Inductive retold (f : str -> str) (cfg : config) : str -> str -> Prop :=
| rt_same : forall x, retold f cfg x x
| rt_exception : forall t t', like_term eq (fun a b => b = f a) t t' -> retold f cfg (show_term t) (show_term t')
| rt_choice : forall d d', like_defs eq (fun a b => b = f a) d d' -> retold f cfg (defs_name cfg d) (defs_name cfg d').
