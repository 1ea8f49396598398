(** Which events of a parse belong to the text, and which were left by bodies of brackets that
    were given up. *)
From Coq Require Import String List NArith Arith Bool.
From Verif Require Import Base Ast Graph SpecText SpecSyntax SpecParse.
Import ListNotations.
Open Scope nat_scope.

Inductive piece := Kept (e : event) | Lost (e : event).
Definition event_of (p : piece) : event := match p with Kept e | Lost e => e end.
Definition events_of (ps : list piece) : list event := map event_of ps.
Fixpoint kept (ps : list piece) : list event :=
  match ps with
  | [] => []
  | Kept e :: ps => e :: kept ps
  | Lost _ :: ps => kept ps
  end.
Fixpoint lost (ps : list piece) : list event :=
  match ps with
  | [] => []
  | Kept _ :: ps => lost ps
  | Lost e :: ps => e :: lost ps
  end.

Section Rules.
Variable rules : list rule.
Variable cfg : config.
Notation ev := (ev rules cfg).
Notation fails n s := (exists x s' evs, ev n s (No x s' evs)).

(** [traces n s ps s']: [n] is matched from [s] to [s'] and hands out [ps].  Only where a body
    of brackets is tried in vain something is lost: what it had handed out until it failed. *)
Inductive traces : node -> pst -> list piece -> pst -> Prop :=
| tc_terminal : forall l w s s', goes s w s' -> traces (NPrim (PTerminal l w)) s [Kept (EvToken l (p_at s) w)] s'
| tc_empty : forall l s, traces (NPrim (PEmpty l)) s [] s
| tc_special : forall l c s s' evs, scanned (cfg l c) l s (SMatch s' evs) -> traces (NPrim (PSpecial l c)) s (map Kept evs) s'
| tc_meta : forall l id s ps s', traces (NRef l id) s ps s' -> traces (NPrim (PMeta l id)) s ps s'
| tc_ref : forall l id r s ps s', names rules id r -> traces (NDefs (r_defs r)) s ps s' ->
    traces (NRef l id) s (Kept (EvBegin l (p_at s) (r_id r)) :: ps ++ [Kept (EvEnd l (p_at s') (r_id r))]) s'
| tc_optional : forall l d s ps s', traces (NTimes 0 1 0 (NDefs d)) s ps s' -> traces (NPrim (POptional l d)) s ps s'
| tc_repeated : forall l d s ps s', traces (NTimes 0 max_count 0 (NDefs d)) s ps s' -> traces (NPrim (PRepeated l d)) s ps s'
| tc_grouped : forall l d s ps s', traces (NDefs d) s ps s' -> traces (NPrim (PGrouped l d)) s ps s'
| tc_enough : forall min max i b s, (max <= i)%N -> traces (NTimes min max i b) s [] s
| tc_given_up : forall min max i b s x s' evs, (i < max)%N -> (min <= i)%N -> ev b s (No x s' evs) ->
    traces (NTimes min max i b) s (map Lost evs) s
| tc_more : forall min max i b s ps s1 ps2 s2, (i < max)%N -> (max = max_count -> p_at s1 <> p_at s) ->
    traces b s ps s1 -> traces (NTimes min max (i + 1) b) s1 ps2 s2 -> traces (NTimes min max i b) s (ps ++ ps2) s2
| tc_once : forall p s ps s', traces (NPrim p) s ps s' -> traces (NFactor (Factor 1 p)) s ps s'
| tc_times : forall n p s ps s', n <> 1%N -> traces (NTimes n n 0 (NPrim p)) s ps s' -> traces (NFactor (Factor n p)) s ps s'
| tc_term : forall f s ps s', traces (NFactor f) s ps s' -> traces (NTerm (Term f None)) s ps s'
| tc_excepting : forall f e s w ps s', traces (NFactor f) s ps s' -> goes s w s' ->
    (exists s2 evs2, ev (NFactor e) (Pst w (p_at s)) (Match s2 evs2) /\ p_rest s2 <> []) \/ fails (NFactor e) (Pst w (p_at s)) ->
    traces (NTerm (Term f (Some e))) s ps s'
| tc_nil : forall s, traces (NSeq []) s [] s
| tc_group : forall t ts d s ps s', bare_group t = Some d -> traces (NDefs d) s ps s' -> traces (NSeq (t :: ts)) s ps s'
| tc_seq : forall t ts s ps s1 ps2 s2, bare_group t = None -> traces (NTerm t) s ps s1 -> traces (NSeq ts) s1 ps2 s2 ->
    traces (NSeq (t :: ts)) s (ps ++ ps2) s2
| tc_defs : forall ds n d s ps s', nth_error ds n = Some d -> Forall (fun d' => fails (NSeq d') s) (firstn n ds) ->
    traces (NSeq d) s ps s' -> traces (NDefs ds) s ps s'.

(** ... the rule named [id]. *)
Definition trace (id : str) (s : pst) (ps : list piece) (s' : pst) : Prop :=
  exists r, names rules id r /\ traces (NRef (r_loc r) (r_id r)) s ps s'.
End Rules.
