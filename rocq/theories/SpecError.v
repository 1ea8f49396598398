(** What the errors of a parse say. *)
From Coq Require Import String List NArith Arith Bool Relations.
From Verif Require Import Base Ident Ast Syntax Graph Machine SpecText SpecSyntax SpecParse.
Import ListNotations.
Open Scope nat_scope.

(** [part m n]: [m] stands directly inside [n]. *)
Inductive part : node -> node -> Prop :=
| pt_def : forall d ds, In d ds -> part (NSeq d) (NDefs ds)
| pt_term : forall t ts, In t ts -> part (NTerm t) (NSeq ts)
| pt_factor : forall f x, part (NFactor f) (NTerm (Term f x))
| pt_exception : forall f x, part (NFactor x) (NTerm (Term f (Some x)))
| pt_primary : forall n p, part (NPrim p) (NFactor (Factor n p))
| pt_optional : forall l d, part (NDefs d) (NPrim (POptional l d))
| pt_repeated : forall l d, part (NDefs d) (NPrim (PRepeated l d))
| pt_grouped : forall l d, part (NDefs d) (NPrim (PGrouped l d)).
(** [n] stands somewhere in the rules. *)
Definition occurs (rs : list rule) (n : node) : Prop :=
  exists r, In r rs /\ clos_refl_trans node part n (NDefs (r_defs r)).

(** A place of the text that starts at [s]. *)
Definition place (s : pst) (l : location) : Prop := exists w s', goes s w s' /\ p_at s' = l.

Section Errors.
Variable rs : list rule.
Variable cfg : config.

(** How a construct that can be wanted is called in an error. *)
Inductive called : node -> str -> Prop :=
| ca_terminal : forall l w, called (NPrim (PTerminal l w)) (in_quotes w)
| ca_special : forall l c, called (NPrim (PSpecial l c)) (scanner_symbol (cfg l c))
| ca_exception : forall f x, called (NTerm (Term f (Some x))) (show_term (Term f (Some x)))
| ca_choice : forall d1 d2 ds, called (NDefs (d1 :: d2 :: ds)) (defs_name cfg (d1 :: d2 :: ds)).

(** A syntax error: [e] stands at a place [s'] of the text [s], quotes the text there, and
    names a construct of the rules that does not match there. *)
Definition misses (s : pst) (e : error) : Prop :=
  exists w s' m name, goes s w s' /\ occurs rs m /\ called m name /\ e = wanted s' name /\ fails_with rs cfg m s' e.

(** An error that stops the parse at once: an endless repetition of a construct that
    matches nothing, a scanner that forwards to nowhere, or the error of a scanner. *)
Inductive stops (s : pst) : error -> Prop :=
| so_livelock : forall b s1 s2 es, occurs rs b -> place s (p_at s1) -> matches rs cfg b s1 s2 es -> p_at s2 = p_at s1 ->
    stops s (Error_ (p_at s1) MLivelock)
| so_forward : forall l c id s1 s2, occurs rs (NPrim (PSpecial l c)) -> place s (p_at s1) ->
    scanned (cfg l c) l s1 (SForward id s2) -> ~ defined rs id ->
    stops s (Error_ (p_at s1) (MNoSuchForward id (scanner_symbol (cfg l c)) l))
| so_scanner : forall l c s1 e, occurs rs (NPrim (PSpecial l c)) -> place s (p_at s1) ->
    scanned (cfg l c) l s1 (SFail e) -> stops s e.
End Errors.
