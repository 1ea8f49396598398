(** Grammars that can be parsed by looking one character ahead (LL(1)), in terms of the
    language of the rules. *)
From Coq Require Import String List NArith Arith Bool.
From Verif Require Import Base Ast Graph SpecText SpecSyntax SpecParse SpecEvents SpecTotal.
Import ListNotations.
Open Scope nat_scope.

Section Rules.
Variable rules : list rule.
Variable cfg : config.
Notation lang := (lang cfg rules).

(** Some word of [n] begins with [c]; the empty word is one of [n]. *)
Definition begins (n : node) (c : N) : Prop := exists w, lang n (c :: w).
Definition vanishes (n : node) : Prop := lang n [].

(** [after start n x]: in a parse of the rule [start], what [n] matches may be followed by
    [x], a character or ([None]) the end of the text. *)
Inductive after (start : str) : node -> option N -> Prop :=
| af_start : forall r, names rules start r -> after start (NDefs (r_defs r)) None
| af_meta : forall l id r x, after start (NPrim (PMeta l id)) x -> names rules id r -> after start (NDefs (r_defs r)) x
| af_defs : forall ds d x, after start (NDefs ds) x -> In d ds -> after start (NSeq d) x
| af_head : forall t ts x c, after start (NSeq (t :: ts)) x -> begins (NSeq ts) c -> after start (NTerm t) (Some c)
| af_head_last : forall t ts x, after start (NSeq (t :: ts)) x -> vanishes (NSeq ts) -> after start (NTerm t) x
| af_rest : forall t ts x, after start (NSeq (t :: ts)) x -> after start (NSeq ts) x
| af_term : forall f e x, after start (NTerm (Term f e)) x -> after start (NFactor f) x
| af_factor : forall n p x, after start (NFactor (Factor n p)) x -> after start (NPrim p) x
| af_again : forall n p x c, after start (NFactor (Factor n p)) x -> (1 < n)%N -> begins (NPrim p) c -> after start (NPrim p) (Some c)
| af_optional : forall l d x, after start (NPrim (POptional l d)) x -> after start (NDefs d) x
| af_group : forall l d x, after start (NPrim (PGrouped l d)) x -> after start (NDefs d) x
| af_repeated : forall l d x, after start (NPrim (PRepeated l d)) x -> after start (NDefs d) x
| af_round : forall l d x c, after start (NPrim (PRepeated l d)) x -> begins (NDefs d) c -> after start (NDefs d) (Some c).

(** The constructs of the rules. *)
Inductive part : node -> Prop :=
| pt_rule : forall r, In r rules -> part (NDefs (r_defs r))
| pt_defs : forall ds d, part (NDefs ds) -> In d ds -> part (NSeq d)
| pt_head : forall t ts, part (NSeq (t :: ts)) -> part (NTerm t)
| pt_rest : forall t ts, part (NSeq (t :: ts)) -> part (NSeq ts)
| pt_term : forall f e, part (NTerm (Term f e)) -> part (NFactor f)
| pt_factor : forall n p, part (NFactor (Factor n p)) -> part (NPrim p)
| pt_optional : forall l d, part (NPrim (POptional l d)) -> part (NDefs d)
| pt_repeated : forall l d, part (NPrim (PRepeated l d)) -> part (NDefs d)
| pt_group : forall l d, part (NPrim (PGrouped l d)) -> part (NDefs d).

(** Nothing in the rules stops a parse: no definition-list is empty, every name is that of
    a rule, no scanner fails, no repetition can go round without reading anything. *)
Definition unstoppable : Prop :=
  ~ part (NDefs []) /\
  (forall l id, part (NPrim (PMeta l id)) -> defined rules id) /\
  (forall l c s e, part (NPrim (PSpecial l c)) -> ~ scanned (cfg l c) l s (SFail e)) /\
  (forall l d, part (NPrim (PRepeated l d)) -> ~ vanishes (NDefs d)) /\
  (forall p, part (NFactor (Factor max_count p)) -> ~ vanishes (NPrim p)) /\
  no_forwarding cfg.
(** The rules say what they seem to say: there are no exceptions, and nothing follows a
    group that is a term by itself. *)
Definition straightforward : Prop :=
  (forall f e, ~ part (NTerm (Term f (Some e)))) /\
  (forall t ts, part (NSeq (t :: ts)) -> bare_group t <> None -> ts = []).
(** The next character tells the alternatives of a choice apart, and whether to go into
    brackets. *)
Definition one_ahead (start : str) : Prop :=
  (forall before d between d' behind x, after start (NDefs (before ++ d :: between ++ d' :: behind)) x ->
    ~ vanishes (NSeq d) /\ (forall c, begins (NSeq d) c -> ~ begins (NSeq d') c) /\
    (vanishes (NSeq d') -> forall c, x = Some c -> ~ begins (NSeq d) c)) /\
  (forall l d c, after start (NPrim (POptional l d)) (Some c) -> ~ begins (NDefs d) c) /\
  (forall l d c, after start (NPrim (PRepeated l d)) (Some c) -> ~ begins (NDefs d) c) /\
  (forall l k w s s', after start (NPrim (PSpecial l k)) (hd_error (p_rest s')) -> lang (NPrim (PSpecial l k)) w -> goes s w s' ->
    exists e, scanned (cfg l k) l s (SMatch s' e)).
Definition predictive (start : str) : Prop :=
  unstoppable /\ straightforward /\ one_ahead start /\ (forall r, In r rules -> ~ left_recursive rules cfg r).
End Rules.
