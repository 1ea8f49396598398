(** Derivations: the ways in which a text can be built from the rules, with the events that
    describe them.  Nothing here tells which way a parser goes. *)
From Coq Require Import String List NArith Arith Bool.
From Verif Require Import Base Ast Graph SpecText SpecSyntax SpecParse SpecEvents SpecLL.
Import ListNotations.
Open Scope nat_scope.

Section Rules.
Variable rules : list rule.
Variable cfg : config.

(** [derives n s evs s']: the text from [s] to [s'] can be derived from [n]; the events
    [evs] tell how (what an exception takes away is not taken into account, as in [lang]). *)
Inductive derives : node -> pst -> list event -> pst -> Prop :=
| dv_terminal : forall l w s s', goes s w s' -> derives (NPrim (PTerminal l w)) s [EvToken l (p_at s) w] s'
| dv_empty : forall l s, derives (NPrim (PEmpty l)) s [] s
| dv_special : forall l c s s' e, scanned (cfg l c) l s (SMatch s' e) -> derives (NPrim (PSpecial l c)) s e s'
| dv_meta : forall l id r s e s', names rules id r -> derives (NDefs (r_defs r)) s e s' ->
    derives (NPrim (PMeta l id)) s (EvBegin l (p_at s) (r_id r) :: e ++ [EvEnd l (p_at s') (r_id r)]) s'
| dv_none : forall l d s, derives (NPrim (POptional l d)) s [] s
| dv_optional : forall l d s e s', derives (NDefs d) s e s' -> derives (NPrim (POptional l d)) s e s'
| dv_stop : forall l d s, derives (NPrim (PRepeated l d)) s [] s
| dv_repeated : forall l d s e1 s1 e2 s2, derives (NDefs d) s e1 s1 -> derives (NPrim (PRepeated l d)) s1 e2 s2 ->
    derives (NPrim (PRepeated l d)) s (e1 ++ e2) s2
| dv_group : forall l d s e s', derives (NDefs d) s e s' -> derives (NPrim (PGrouped l d)) s e s'
| dv_zero : forall p s, derives (NFactor (Factor 0 p)) s [] s
| dv_times : forall n p s e1 s1 e2 s2, derives (NPrim p) s e1 s1 -> derives (NFactor (Factor n p)) s1 e2 s2 ->
    derives (NFactor (Factor (N.succ n) p)) s (e1 ++ e2) s2
| dv_term : forall f x s e s', derives (NFactor f) s e s' -> derives (NTerm (Term f x)) s e s'
| dv_nil : forall s, derives (NSeq []) s [] s
| dv_seq : forall t ts s e1 s1 e2 s2, derives (NTerm t) s e1 s1 -> derives (NSeq ts) s1 e2 s2 ->
    derives (NSeq (t :: ts)) s (e1 ++ e2) s2
| dv_defs : forall ds d s e s', In d ds -> derives (NSeq d) s e s' -> derives (NDefs ds) s e s'.

(** ... of the rule named [id], with the events of the rule itself. *)
Definition derivation (id : str) (s : pst) (evs : list event) (s' : pst) : Prop :=
  exists r e, names rules id r /\ derives (NDefs (r_defs r)) s e s' /\
    evs = EvBegin (r_loc r) (p_at s) (r_id r) :: e ++ [EvEnd (r_loc r) (p_at s') (r_id r)].

(** Every construct of the rules has a word. *)
Definition productive : Prop := forall n, part rules n -> exists w, lang cfg rules n w.
End Rules.

(** The events without tokens that have no text, and without rules that have no tokens. *)
Definition solid_step (e : event) (r : list event) : list event :=
  match e, r with
  | EvToken _ _ [], _ => r
  | EvBegin _ _ _, EvEnd _ _ _ :: r' => r'
  | _, _ => e :: r
  end.
Definition solid (es : list event) : list event := fold_right solid_step [] es.
