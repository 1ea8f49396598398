(** How much a parse has to do, told from the rules and the text alone: one unit for
    each construct tried, each time it is tried.  Nothing here knows of instructions,
    addresses, readers, buffers or marks. *)
From Coq Require Import String List NArith Arith Bool.
From Verif Require Import Base Ast Graph SpecText SpecSyntax SpecParse.
Import ListNotations.
Open Scope nat_scope.

Section Work.
Variable rules : list rule.
Variable cfg : config.
Notation ev := (ev rules cfg).
Notation names := (names rules).

(** Not a match: a failure, or the end of the whole parse. *)
Definition over (o : outcome) : Prop := forall s e, o <> Match s e.
Definition forwarded (x : sres) : Prop := exists id s, x = SForward id s.

Inductive work : node -> pst -> nat -> Prop :=
(** A terminal, an empty primary and a special sequence: one unit; a special
    sequence that forwards also does the work of its target. *)
| wk_terminal : forall l w s, work (NPrim (PTerminal l w)) s 1
| wk_empty : forall l s, work (NPrim (PEmpty l)) s 1
| wk_special : forall l c s x, scanned (cfg l c) l s x -> ~ forwarded x -> work (NPrim (PSpecial l c)) s 1
| wk_forward : forall l c s id s1 k, scanned (cfg l c) l s (SForward id s1) -> work (NFwd id) s1 k ->
    work (NPrim (PSpecial l c)) s (1 + k)
| wk_unknown : forall l c s id s1, scanned (cfg l c) l s (SForward id s1) ->
    ~ defined rules id -> (forall r, In r rules -> ~ dollar id r) -> work (NPrim (PSpecial l c)) s 1
| wk_fwd : forall id r s k, names id r -> work (NDefs (r_defs r)) s k -> work (NFwd id) s k
| wk_fwd_alias : forall id r s k, In r rules -> dollar id r -> work (NRef (r_loc r) (r_id r)) s k -> work (NFwd id) s k
(** A reference: one unit and the work of the rule. *)
| wk_meta : forall l id s k, work (NRef l id) s k -> work (NPrim (PMeta l id)) s k
| wk_ref : forall l id r s k, names id r -> work (NDefs (r_defs r)) s k -> work (NRef l id) s (1 + k)
| wk_undefined : forall l id s, ~ defined rules id -> work (NRef l id) s 1
(** Brackets: options, repetitions and numbered factors one unit more than their rounds;
    a group nothing. *)
| wk_optional : forall l d s k, work (NTimes 0 1 0 (NDefs d)) s k -> work (NPrim (POptional l d)) s (1 + k)
| wk_repeated : forall l d s k, work (NTimes 0 max_count 0 (NDefs d)) s k -> work (NPrim (PRepeated l d)) s (1 + k)
| wk_grouped : forall l d s k, work (NDefs d) s k -> work (NPrim (PGrouped l d)) s k
| wk_factor_one : forall p s k, work (NPrim p) s k -> work (NFactor (Factor 1 p)) s k
| wk_factor_many : forall n p s k, n <> 1%N -> work (NTimes n n 0 (NPrim p)) s k -> work (NFactor (Factor n p)) s (1 + k)
(** Rounds: those that match, and the one that does not (or does not move). *)
| wk_times_end : forall min max i b s, (max <= i)%N -> work (NTimes min max i b) s 0
| wk_times_last : forall min max i b s o k, (i < max)%N -> ev b s o -> work b s k ->
    over o \/ max = max_count /\ (exists s' e, o = Match s' e /\ p_at s' = p_at s) -> work (NTimes min max i b) s k
| wk_times_more : forall min max i b s s' e k k2, (i < max)%N -> (max = max_count -> p_at s' <> p_at s) ->
    ev b s (Match s' e) -> work b s k -> work (NTimes min max (i + 1) b) s' k2 -> work (NTimes min max i b) s (k + k2)
(** Exceptions: one unit, the work of the factor and, where it matches, that of the
    exception on what it matched. *)
| wk_term_plain : forall f s k, work (NFactor f) s k -> work (NTerm (Term f None)) s k
| wk_term_over : forall f e s o k, ev (NFactor f) s o -> over o -> work (NFactor f) s k ->
    work (NTerm (Term f (Some e))) s (1 + k)
| wk_term_exc : forall f e s w s' evs k k2, ev (NFactor f) s (Match s' evs) -> goes s w s' -> work (NFactor f) s k ->
    work (NFactor e) (Pst w (p_at s)) k2 -> work (NTerm (Term f (Some e))) s (1 + (k + k2))
(** Sequences: up to the first term that does not match (a bare group ends its sequence). *)
| wk_seq_nil : forall s, work (NSeq []) s 0
| wk_seq_group : forall t ts d s k, bare_group t = Some d -> work (NDefs d) s k -> work (NSeq (t :: ts)) s k
| wk_seq : forall t ts s s' evs k k2, bare_group t = None -> ev (NTerm t) s (Match s' evs) -> work (NTerm t) s k ->
    work (NSeq ts) s' k2 -> work (NSeq (t :: ts)) s (k + k2)
| wk_seq_over : forall t ts s o k, bare_group t = None -> ev (NTerm t) s o -> over o -> work (NTerm t) s k ->
    work (NSeq (t :: ts)) s k
(** Choices between several definitions: one unit and all that is tried, each from
    the same place. *)
| wk_defs_one : forall d s k, work (NSeq d) s k -> work (NDefs [d]) s k
| wk_defs_none : forall s, work (NDefs []) s 1
| wk_defs : forall d1 d2 ds s k, work (NAlts (d1 :: d2 :: ds)) s k -> work (NDefs (d1 :: d2 :: ds)) s (1 + k)
| wk_alts_nil : forall s, work (NAlts []) s 0
| wk_alts_end : forall d ds s o k, ev (NSeq d) s o -> (forall x s' e, o <> No x s' e) -> work (NSeq d) s k ->
    work (NAlts (d :: ds)) s k
| wk_alts_next : forall d ds s x s' e k k2, ev (NSeq d) s (No x s' e) -> work (NSeq d) s k -> work (NAlts ds) s k2 ->
    work (NAlts (d :: ds)) s (k + k2).

(** What a parse of the text from [s] on with the rule [id] has to do. *)
Definition labour (id : str) (s : pst) (k : nat) : Prop :=
  exists r, names id r /\ work (NRef (r_loc r) (r_id r)) s k.
End Work.
