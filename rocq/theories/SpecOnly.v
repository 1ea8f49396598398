(** Derivations, what exceptions take away left out, and alternatives without common words. *)
From Coq Require Import String List NArith Arith Bool.
From Verif Require Import Base Ast Graph SpecText SpecSyntax SpecParse SpecEvents SpecTotal SpecExact.
Import ListNotations.
Open Scope nat_scope.

Section Rules.
Variable rules : list rule.
Variable cfg : config.

(** [xderives n s evs s']: the text from [s] to [s'] can be derived from [n], and is not what an
    exception takes away; the events [evs] tell how.  (As [derives] of SpecDeriv.v but for the
    exceptions; as [xlang] of SpecExact.v but for the events.) *)
Inductive xderives : node -> pst -> list event -> pst -> Prop :=
| xd_terminal : forall l w s s', goes s w s' -> xderives (NPrim (PTerminal l w)) s [EvToken l (p_at s) w] s'
| xd_empty : forall l s, xderives (NPrim (PEmpty l)) s [] s
| xd_special : forall l c s s' e, scanned (cfg l c) l s (SMatch s' e) -> xderives (NPrim (PSpecial l c)) s e s'
| xd_meta : forall l id r s e s', names rules id r -> xderives (NDefs (r_defs r)) s e s' ->
    xderives (NPrim (PMeta l id)) s (EvBegin l (p_at s) (r_id r) :: e ++ [EvEnd l (p_at s') (r_id r)]) s'
| xd_none : forall l d s, xderives (NPrim (POptional l d)) s [] s
| xd_optional : forall l d s e s', xderives (NDefs d) s e s' -> xderives (NPrim (POptional l d)) s e s'
| xd_stop : forall l d s, xderives (NPrim (PRepeated l d)) s [] s
| xd_repeated : forall l d s e1 s1 e2 s2, xderives (NDefs d) s e1 s1 -> xderives (NPrim (PRepeated l d)) s1 e2 s2 ->
    xderives (NPrim (PRepeated l d)) s (e1 ++ e2) s2
| xd_group : forall l d s e s', xderives (NDefs d) s e s' -> xderives (NPrim (PGrouped l d)) s e s'
| xd_zero : forall p s, xderives (NFactor (Factor 0 p)) s [] s
| xd_times : forall n p s e1 s1 e2 s2, xderives (NPrim p) s e1 s1 -> xderives (NFactor (Factor n p)) s1 e2 s2 ->
    xderives (NFactor (Factor (N.succ n) p)) s (e1 ++ e2) s2
| xd_term : forall f s e s', xderives (NFactor f) s e s' -> xderives (NTerm (Term f None)) s e s'
| xd_except : forall f x w s e s', xderives (NFactor f) s e s' -> goes s w s' -> ~ lang cfg rules (NFactor x) w ->
    xderives (NTerm (Term f (Some x))) s e s'
| xd_nil : forall s, xderives (NSeq []) s [] s
| xd_seq : forall t ts s e1 s1 e2 s2, xderives (NTerm t) s e1 s1 -> xderives (NSeq ts) s1 e2 s2 ->
    xderives (NSeq (t :: ts)) s (e1 ++ e2) s2
| xd_defs : forall ds d s e s', In d ds -> xderives (NSeq d) s e s' -> xderives (NDefs ds) s e s'.

(** ... of the rule named [id], with the events of the rule itself. *)
Definition xderivation (id : str) (s : pst) (evs : list event) (s' : pst) : Prop :=
  exists r e, names rules id r /\ xderives (NDefs (r_defs r)) s e s' /\
    evs = EvBegin (r_loc r) (p_at s) (r_id r) :: e ++ [EvEnd (r_loc r) (p_at s') (r_id r)].

(** No two alternatives have a word in common, but for the empty one, where they may stand in a
    text of the rule [start]. *)
Definition distinct (start : str) : Prop := forall before d between d' behind k w,
  ahead rules cfg start (NDefs (before ++ d :: between ++ d' :: behind)) k ->
  xlang rules cfg (NSeq d) w -> xlang rules cfg (NSeq d') w -> w = [].
End Rules.
