(** Laws of the notation: ways to write rules differently. *)
From Coq Require Import String List NArith Arith Bool Relations.
From Verif Require Import Base Ast Graph SpecText SpecSyntax SpecParse SpecLike.
Import ListNotations.
Open Scope nat_scope.

(** A primary as a term of its own. *)
Definition just (p : primary) : term := Term (Factor 1 p) None.
Definition grouped (p : primary) : Prop := exists l d, p = PGrouped l d.

(** ** Laws that keep everything but the names of what is expected *)
Inductive law : node -> node -> Prop :=
(** What follows a group standing by itself does not count (src/parser/graph.rs:268). *)
| law_cut : forall l d ts, law (NSeq (just (PGrouped l d) :: ts)) (NSeq [just (PGrouped l d)])
(** A group of one sequence at the end of a sequence. *)
| law_last : forall l ts, law (NSeq [just (PGrouped l [ts])]) (NSeq ts)
(** Empty terms. *)
| law_empty : forall l ts, law (NSeq (just (PEmpty l) :: ts)) (NSeq ts)
| law_zero : forall p ts, law (NSeq (Term (Factor 0 p) None :: ts)) (NSeq ts)
(** Alternatives: a group that is all there is; a group that is an alternative; an
    alternative tried before; alternatives after an empty one. *)
| law_alone : forall l d, law (NDefs [[just (PGrouped l d)]]) (NDefs d)
| law_flat : forall l d a b, d <> [] -> a ++ b <> [] ->
    law (NDefs (a ++ [[just (PGrouped l d)]] ++ b)) (NDefs (a ++ d ++ b))
| law_twice : forall ts a b c, a ++ b ++ c <> [] ->
    law (NDefs (a ++ [ts] ++ b ++ [ts] ++ c)) (NDefs (a ++ [ts] ++ b ++ c))
| law_dead : forall l a b, a <> [] ->
    law (NDefs (a ++ [[just (PEmpty l)]] ++ b)) (NDefs (a ++ [[just (PEmpty l)]]))
(** Brackets in brackets. *)
| law_optional : forall l l' d,
    law (NPrim (POptional l [[just (POptional l' d)]])) (NPrim (POptional l d))
(** Parentheses around a primary, counted or with an exception; in an exception. *)
| law_parens : forall l p n x, (n <> 1%N \/ x <> None) ->
    law (NTerm (Term (Factor n (PGrouped l [[just p]])) x)) (NTerm (Term (Factor n p) x))
| law_excepted : forall l p n f,
    law (NTerm (Term f (Some (Factor n (PGrouped l [[just p]]))))) (NTerm (Term f (Some (Factor n p)))).

(** ** Laws that keep what is accepted and where errors stand, but not the events *)
Inductive loose_law : node -> node -> Prop :=
| loose_exact : forall n n', law n n' -> loose_law n n'
(** A count is a sum of counts (groups are only counted when the count is not 1). *)
| loose_count : forall n m p ts, n <> max_count -> m <> max_count -> (n + m)%N <> max_count ->
    (grouped p -> n <> 1%N /\ m <> 1%N /\ (n + m)%N <> 1%N) ->
    loose_law (NSeq (Term (Factor (n + m) p) None :: ts))
              (NSeq (Term (Factor n p) None :: Term (Factor m p) None :: ts))
(** An option is a choice with an empty alternative. *)
| loose_option : forall l l' l2 d, d <> [] ->
    loose_law (NSeq [just (POptional l d)]) (NSeq [just (PGrouped l' (d ++ [[just (PEmpty l2)]]))])
| loose_optional : forall l l' d, d <> [] ->
    loose_law (NPrim (POptional l (d ++ [[just (PEmpty l')]]))) (NPrim (POptional l d)).

(** ** Rewriting: a law applied at one place, in either direction *)
Section Rewriting.
Variable law : node -> node -> Prop.
Inductive rewrites : node -> node -> Prop :=
| rw_law : forall n n', law n n' -> rewrites n n'
| rw_back : forall n n', law n' n -> rewrites n n'
| rw_optional : forall l d d', rewrites (NDefs d) (NDefs d') -> rewrites (NPrim (POptional l d)) (NPrim (POptional l d'))
| rw_repeated : forall l d d', rewrites (NDefs d) (NDefs d') -> rewrites (NPrim (PRepeated l d)) (NPrim (PRepeated l d'))
| rw_grouped : forall l d d', rewrites (NDefs d) (NDefs d') -> rewrites (NPrim (PGrouped l d)) (NPrim (PGrouped l d'))
| rw_factor : forall n p p' x, rewrites (NPrim p) (NPrim p') ->
    rewrites (NTerm (Term (Factor n p) x)) (NTerm (Term (Factor n p') x))
| rw_except : forall f n p p', rewrites (NPrim p) (NPrim p') ->
    rewrites (NTerm (Term f (Some (Factor n p)))) (NTerm (Term f (Some (Factor n p'))))
| rw_head : forall t t' ts, rewrites (NTerm t) (NTerm t') -> rewrites (NSeq (t :: ts)) (NSeq (t' :: ts))
| rw_tail : forall t ts ts', rewrites (NSeq ts) (NSeq ts') -> rewrites (NSeq (t :: ts)) (NSeq (t :: ts'))
| rw_alternative : forall a ts ts' b, rewrites (NSeq ts) (NSeq ts') -> rewrites (NDefs (a ++ [ts] ++ b)) (NDefs (a ++ [ts'] ++ b)).
(** One rule of [rs] is rewritten at one place. *)
Definition rewrites_rules (rs rs' : list rule) : Prop :=
  exists before l id d d' after, rs = before ++ Rule l id d :: after /\ rs' = before ++ Rule l id d' :: after /\
    rewrites (NDefs d) (NDefs d').
(** Any number of times. *)
Definition rewritten : list rule -> list rule -> Prop := clos_refl_trans _ rewrites_rules.
End Rewriting.

(** ** Answers *)
(** Equal errors, or errors that say something was expected at the same place. *)
Definition same_place (e e' : error) : Prop :=
  e = e' \/ (e_loc e = e_loc e' /\ (exists x a, e_msg e = MExpected x a) /\ exists x a, e_msg e' = MExpected x a).
(** The same answer: the same events, or an error at the same place, or a panic. *)
Definition agrees (a b : res (list event)) : Prop :=
  match a, b with
  | Ok x, Ok y => x = y
  | Err e, Err e' => same_place e e'
  | Panic _, Panic _ => True
  | _, _ => False
  end.
(** ... up to the locations of definitions. *)
Definition agrees_elsewhere (a b : res (list event)) : Prop :=
  match a, b with
  | Ok x, Ok y => like_events any eq x y
  | Err e, Err e' => like_error any eq eq e e' \/ same_place e e'
  | Panic _, Panic _ => True
  | _, _ => False
  end.
(** ... not regarding the events. *)
Definition accepts_alike (a b : res (list event)) : Prop :=
  match a, b with
  | Ok _, Ok _ => True
  | Err e, Err e' => same_place e e'
  | Panic _, Panic _ => True
  | _, _ => False
  end.

(** ** Rules without what is never parsed: nothing follows a group standing by itself *)
Fixpoint cut (p : primary) : primary :=
  let cut_term (t : term) : term :=
    match t with
    | Term (Factor n q) None => Term (Factor n (cut q)) None
    | Term (Factor n q) (Some (Factor m x)) => Term (Factor n (cut q)) (Some (Factor m (cut x)))
    end in
  let cut_seq := fix cut_seq (ts : list term) : list term :=
    match ts with
    | [] => []
    | t :: rest => cut_term t :: match bare_group t with Some _ => [] | None => cut_seq rest end
    end in
  match p with
  | POptional l d => POptional l (map cut_seq d)
  | PRepeated l d => PRepeated l (map cut_seq d)
  | PGrouped l d => PGrouped l (map cut_seq d)
  | _ => p
  end.
Definition cut_term (t : term) : term :=
  match t with
  | Term (Factor n q) None => Term (Factor n (cut q)) None
  | Term (Factor n q) (Some (Factor m x)) => Term (Factor n (cut q)) (Some (Factor m (cut x)))
  end.
Fixpoint cut_seq (ts : list term) : list term :=
  match ts with
  | [] => []
  | t :: rest => cut_term t :: match bare_group t with Some _ => [] | None => cut_seq rest end
  end.
Definition cut_rule (r : rule) : rule := Rule (r_loc r) (r_id r) (map cut_seq (r_defs r)).
