(** Rules whose choices never have to be undone, in terms of the language of the rules.  The
    text that decides about a choice may be of any length. *)
From Coq Require Import String List NArith Arith Bool.
From Verif Require Import Base Ast Graph SpecText SpecSyntax SpecParse SpecEvents SpecTotal.
Import ListNotations.
Open Scope nat_scope.

Section Rules.
Variable rules : list rule.
Variable cfg : config.

(** The language of a construct, with the words of exceptions taken away.  ([lang] of
    SpecEvents.v leaves them in; for an exception that contains no exceptions, [lang] is its
    language.) *)
Inductive xlang : node -> str -> Prop :=
| xl_terminal : forall l w, xlang (NPrim (PTerminal l w)) w
| xl_empty : forall l, xlang (NPrim (PEmpty l)) []
| xl_special : forall l c s w s' e, scanned (cfg l c) l s (SMatch s' e) -> goes s w s' -> xlang (NPrim (PSpecial l c)) w
| xl_meta : forall l id r w, names rules id r -> xlang (NDefs (r_defs r)) w -> xlang (NPrim (PMeta l id)) w
| xl_none : forall l d, xlang (NPrim (POptional l d)) []
| xl_optional : forall l d w, xlang (NDefs d) w -> xlang (NPrim (POptional l d)) w
| xl_stop : forall l d, xlang (NPrim (PRepeated l d)) []
| xl_repeated : forall l d w1 w2, xlang (NDefs d) w1 -> xlang (NPrim (PRepeated l d)) w2 -> xlang (NPrim (PRepeated l d)) (w1 ++ w2)
| xl_group : forall l d w, xlang (NDefs d) w -> xlang (NPrim (PGrouped l d)) w
| xl_zero : forall p, xlang (NFactor (Factor 0 p)) []
| xl_times : forall n p w1 w2, xlang (NPrim p) w1 -> xlang (NFactor (Factor n p)) w2 -> xlang (NFactor (Factor (N.succ n) p)) (w1 ++ w2)
| xl_term : forall f w, xlang (NFactor f) w -> xlang (NTerm (Term f None)) w
| xl_except : forall f e w, xlang (NFactor f) w -> ~ lang cfg rules (NFactor e) w -> xlang (NTerm (Term f (Some e))) w
| xl_nil : xlang (NSeq []) []
| xl_seq : forall t ts w1 w2, xlang (NTerm t) w1 -> xlang (NSeq ts) w2 -> xlang (NSeq (t :: ts)) (w1 ++ w2)
| xl_defs : forall ds d w, In d ds -> xlang (NSeq d) w -> xlang (NDefs ds) w.

(** [uses n m]: [m] is [n] or stands in it, or in a rule that is referred to there. *)
Inductive uses (n : node) : node -> Prop :=
| us_self : uses n n
| us_meta : forall l id r, uses n (NPrim (PMeta l id)) -> names rules id r -> uses n (NDefs (r_defs r))
| us_defs : forall ds d, uses n (NDefs ds) -> In d ds -> uses n (NSeq d)
| us_head : forall t ts, uses n (NSeq (t :: ts)) -> uses n (NTerm t)
| us_rest : forall t ts, uses n (NSeq (t :: ts)) -> uses n (NSeq ts)
| us_term : forall f e, uses n (NTerm (Term f e)) -> uses n (NFactor f)
| us_except : forall f e, uses n (NTerm (Term f (Some e))) -> uses n (NFactor e)
| us_factor : forall k p, uses n (NFactor (Factor k p)) -> uses n (NPrim p)
| us_optional : forall l d, uses n (NPrim (POptional l d)) -> uses n (NDefs d)
| us_repeated : forall l d, uses n (NPrim (PRepeated l d)) -> uses n (NDefs d)
| us_group : forall l d, uses n (NPrim (PGrouped l d)) -> uses n (NDefs d).
(** The constructs of the rules, those of exceptions included. *)
Definition construct (n : node) : Prop := exists r, In r rules /\ uses (NDefs (r_defs r)) n.

(** Nothing in the rules stops a parse, nothing follows a group that is a term by itself, and
    exceptions use no exceptions. *)
Definition unhindered : Prop :=
  ~ construct (NDefs []) /\
  (forall l id, construct (NPrim (PMeta l id)) -> defined rules id) /\
  (forall l c s e, construct (NPrim (PSpecial l c)) -> ~ scanned (cfg l c) l s (SFail e)) /\
  (forall l d, construct (NPrim (PRepeated l d)) -> ~ lang cfg rules (NDefs d) []) /\
  (forall p, construct (NFactor (Factor max_count p)) -> ~ lang cfg rules (NPrim p) []) /\
  (forall t ts, construct (NSeq (t :: ts)) -> bare_group t <> None -> ts = []) /\
  (forall f e f' e', construct (NTerm (Term f (Some e))) -> ~ uses (NFactor e) (NTerm (Term f' (Some e')))) /\
  no_forwarding cfg.

(** [ahead start n k]: in a text of the rule [start], a word of [n] may be followed by [k], up to
    the end of the text.  An exception is tried on a text of its own. *)
Inductive ahead (start : str) : node -> str -> Prop :=
| ah_start : forall r, names rules start r -> ahead start (NDefs (r_defs r)) []
| ah_meta : forall l id r k, ahead start (NPrim (PMeta l id)) k -> names rules id r -> ahead start (NDefs (r_defs r)) k
| ah_defs : forall ds d k, ahead start (NDefs ds) k -> In d ds -> ahead start (NSeq d) k
| ah_head : forall t ts w k, ahead start (NSeq (t :: ts)) k -> xlang (NSeq ts) w -> ahead start (NTerm t) (w ++ k)
| ah_rest : forall t ts k, ahead start (NSeq (t :: ts)) k -> ahead start (NSeq ts) k
| ah_term : forall f e k, ahead start (NTerm (Term f e)) k -> ahead start (NFactor f) k
| ah_except : forall f e, construct (NTerm (Term f (Some e))) -> ahead start (NFactor e) []
| ah_factor : forall n i p w k, ahead start (NFactor (Factor n p)) k -> (i < n)%N -> xlang (NFactor (Factor i p)) w -> ahead start (NPrim p) (w ++ k)
| ah_optional : forall l d k, ahead start (NPrim (POptional l d)) k -> ahead start (NDefs d) k
| ah_group : forall l d k, ahead start (NPrim (PGrouped l d)) k -> ahead start (NDefs d) k
| ah_repeated : forall l d w k, ahead start (NPrim (PRepeated l d)) k -> xlang (NPrim (PRepeated l d)) w -> ahead start (NDefs d) (w ++ k).

(** No choice has to be undone:
    - where an alternative is right, no earlier alternative finds another word;
    - where an option or a repetition is over, its body finds no word (for an option: none but
      the empty one);
    - a special sequence finds the right one of its words. *)
Definition committed (start : str) : Prop :=
  (forall before d between d' behind k w u v, ahead start (NDefs (before ++ d :: between ++ d' :: behind)) k ->
    xlang (NSeq d') w -> w ++ k = u ++ v -> xlang (NSeq d) u -> u = w) /\
  (forall l d u v, ahead start (NPrim (POptional l d)) (u ++ v) -> xlang (NDefs d) u -> u = []) /\
  (forall l d u v, ahead start (NPrim (PRepeated l d)) (u ++ v) -> ~ xlang (NDefs d) u) /\
  (forall l c w s s', ahead start (NPrim (PSpecial l c)) (p_rest s') -> xlang (NPrim (PSpecial l c)) w -> goes s w s' ->
    exists e, scanned (cfg l c) l s (SMatch s' e)).
Definition determinate (start : str) : Prop :=
  unhindered /\ committed start /\ (forall r, In r rules -> ~ left_recursive rules cfg r).
End Rules.
