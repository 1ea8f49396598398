(** Rules that grow: further alternatives, further optional parts, further rules. *)
From Coq Require Import String List NArith Arith Bool.
From Verif Require Import Base Ast Graph SpecText SpecSyntax SpecParse SpecEvents.
Import ListNotations.
Open Scope nat_scope.

(** What an event tells, but for the place in the rules where it comes from. *)
Inductive sight := SToken (l : location) (w : str) | SBegin (l : location) (b : str) | SEnd (l : location) (b : str).
Definition seen (e : event) : sight :=
  match e with EvToken _ l w => SToken l w | EvBegin _ l b => SBegin l b | EvEnd _ l b => SEnd l b end.

Section Rules.
Variables old new : list rule.
Variables cfg cfg' : config.

(** [grows n n']: the construct [n] of the old rules became [n'] in the new ones.
    - Alternatives may be added anywhere, and put in any order.
    - Optional parts and repetitions may be put between the terms of a definition.
    - A term without exception may become optional, or a repetition; an option a repetition.
    - An exception may be dropped, or take away less.
    Locations do not count. *)
Inductive grows : node -> node -> Prop :=
| gr_terminal : forall l l' w, grows (NPrim (PTerminal l w)) (NPrim (PTerminal l' w))
| gr_empty : forall l l', grows (NPrim (PEmpty l)) (NPrim (PEmpty l'))
| gr_special : forall l c l' c',
    (forall s s' e, scanned (cfg l c) l s (SMatch s' e) ->
       exists e', scanned (cfg' l' c') l' s (SMatch s' e') /\ map seen e' = map seen e) ->
    grows (NPrim (PSpecial l c)) (NPrim (PSpecial l' c'))
| gr_meta : forall l l' id, grows (NPrim (PMeta l id)) (NPrim (PMeta l' id))
| gr_optional : forall l l' d d', grows (NDefs d) (NDefs d') -> grows (NPrim (POptional l d)) (NPrim (POptional l' d'))
| gr_more : forall l l' d d', grows (NDefs d) (NDefs d') -> grows (NPrim (POptional l d)) (NPrim (PRepeated l' d'))
| gr_repeated : forall l l' d d', grows (NDefs d) (NDefs d') -> grows (NPrim (PRepeated l d)) (NPrim (PRepeated l' d'))
| gr_group : forall l l' d d', grows (NDefs d) (NDefs d') -> grows (NPrim (PGrouped l d)) (NPrim (PGrouped l' d'))
| gr_factor : forall n p p', grows (NPrim p) (NPrim p') -> grows (NFactor (Factor n p)) (NFactor (Factor n p'))
| gr_term : forall f f', grows (NFactor f) (NFactor f') -> grows (NTerm (Term f None)) (NTerm (Term f' None))
| gr_except : forall f f' x x', grows (NFactor f) (NFactor f') ->
    (forall w, lang cfg' new (NFactor x') w -> lang cfg old (NFactor x) w) ->
    grows (NTerm (Term f (Some x))) (NTerm (Term f' (Some x')))
| gr_drop : forall f f' x, grows (NFactor f) (NFactor f') -> grows (NTerm (Term f (Some x))) (NTerm (Term f' None))
| gr_loosen : forall l f f', grows (NFactor f) (NFactor f') ->
    grows (NTerm (Term f None)) (NTerm (Term (Factor 1 (POptional l [[Term f' None]])) None))
| gr_repeat : forall l f f', grows (NFactor f) (NFactor f') ->
    grows (NTerm (Term f None)) (NTerm (Term (Factor 1 (PRepeated l [[Term f' None]])) None))
| gr_nil : grows (NSeq []) (NSeq [])
| gr_seq : forall t t' ts ts', grows (NTerm t) (NTerm t') -> grows (NSeq ts) (NSeq ts') -> grows (NSeq (t :: ts)) (NSeq (t' :: ts'))
| gr_option : forall l d ts ts', grows (NSeq ts) (NSeq ts') -> grows (NSeq ts) (NSeq (Term (Factor 1 (POptional l d)) None :: ts'))
| gr_repetition : forall l d ts ts', grows (NSeq ts) (NSeq ts') -> grows (NSeq ts) (NSeq (Term (Factor 1 (PRepeated l d)) None :: ts'))
| gr_defs : forall ds ds', (forall d, In d ds -> exists d', In d' ds' /\ grows (NSeq d) (NSeq d')) -> grows (NDefs ds) (NDefs ds').

(** Every old rule is there, under its name, and grew. *)
Definition grown_rules : Prop := forall id r, names old id r ->
  exists r', names new id r' /\ r_id r' = r_id r /\ grows (NDefs (r_defs r)) (NDefs (r_defs r')).
End Rules.

(** ** A check *)
Definition same_exc (x x' : option factor) : bool :=
  match x, x' with
  | None, None | Some _, None => true
  | Some (Factor 1 (PTerminal _ w)), Some (Factor 1 (PTerminal _ w')) => str_eqb w w'
  | _, _ => false
  end.
(** Can be left out. *)
Definition extra (t : term) : bool :=
  match t with
  | Term (Factor 1 (POptional _ _)) None | Term (Factor 1 (PRepeated _ _)) None => true
  | _ => false
  end.
Section Seq.
Variable gt : term -> term -> bool.
Fixpoint seq_grows (ts : list term) : list term -> bool :=
  fix go (ts' : list term) : bool :=
    match ts' with
    | [] => match ts with [] => true | _ :: _ => false end
    | t' :: r' => (extra t' && go r') || match ts with [] => false | t :: r => gt t t' && seq_grows r r' end
    end.
End Seq.
Fixpoint prim_grows (p p' : primary) {struct p} : bool :=
  let defs_grow (d d' : list (list (term_ primary))) :=
    forallb (fun ts => existsb (seq_grows (fun t t' =>
      match t, t' with
      | Term (Factor n p) x, Term (Factor n' p') x' =>
          (N.eqb n n' && prim_grows p p' && same_exc x x') ||
          match x, t' with
          | None, Term (Factor 1 (POptional _ [[Term (Factor n1 p1) None]])) None
          | None, Term (Factor 1 (PRepeated _ [[Term (Factor n1 p1) None]])) None => N.eqb n n1 && prim_grows p p1
          | _, _ => false
          end
      end) ts) d') d in
  match p, p' with
  | PTerminal _ w, PTerminal _ w' | PSpecial _ w, PSpecial _ w' | PMeta _ w, PMeta _ w' => str_eqb w w'
  | PEmpty _, PEmpty _ => true
  | POptional _ d, POptional _ d' | POptional _ d, PRepeated _ d' | PRepeated _ d, PRepeated _ d' | PGrouped _ d, PGrouped _ d' => defs_grow d d'
  | _, _ => false
  end.
Definition term_grows (t t' : term) : bool :=
  match t, t' with
  | Term (Factor n p) x, Term (Factor n' p') x' =>
      (N.eqb n n' && prim_grows p p' && same_exc x x') ||
      match x, t' with
      | None, Term (Factor 1 (POptional _ [[Term (Factor n1 p1) None]])) None
      | None, Term (Factor 1 (PRepeated _ [[Term (Factor n1 p1) None]])) None => N.eqb n n1 && prim_grows p p1
      | _, _ => false
      end
  end.
Definition defs_grow (d d' : definition_list) : bool := forallb (fun ts => existsb (seq_grows term_grows ts) d') d.
Definition rules_grow (old new : list rule) : bool :=
  forallb (fun r => existsb (fun r' => str_eqb (r_id r) (r_id r') && defs_grow (r_defs r) (r_defs r')) new) old.
