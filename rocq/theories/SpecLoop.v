(** Which rules a parse tries, and where. *)
From Coq Require Import String List NArith Arith Bool Relations.
From Verif Require Import Base Ast Graph SpecText SpecSyntax SpecParse.
Import ListNotations.
Open Scope nat_scope.

Section Rules.
Variable rules : list rule.
Variable cfg : config.
Notation ev := (ev rules cfg).
Notation names := (names rules).
(** [asks n s r s']: trying [n] at [s] comes to trying the body of the rule [r] at [s'], not
    counting what that body tries in turn. *)
Inductive asks : node -> pst -> rule -> pst -> Prop :=
| as_meta : forall l id s r s', asks (NRef l id) s r s' -> asks (NPrim (PMeta l id)) s r s'
| as_ref : forall l id s r, names id r -> asks (NRef l id) s r s
| as_forward : forall l c s id s1 r s', scanned (cfg l c) l s (SForward id s1) -> asks (NFwd id) s1 r s' ->
    asks (NPrim (PSpecial l c)) s r s'
| as_fwd : forall id s r, names id r -> asks (NFwd id) s r s
| as_fwd_alias : forall id s r0 r s', In r0 rules -> dollar id r0 -> asks (NRef (r_loc r0) (r_id r0)) s r s' -> asks (NFwd id) s r s'
| as_optional : forall l d s r s', asks (NTimes 0 1 0 (NDefs d)) s r s' -> asks (NPrim (POptional l d)) s r s'
| as_repeated : forall l d s r s', asks (NTimes 0 max_count 0 (NDefs d)) s r s' -> asks (NPrim (PRepeated l d)) s r s'
| as_group : forall l d s r s', asks (NDefs d) s r s' -> asks (NPrim (PGrouped l d)) s r s'
| as_round : forall min max i b s r s', (i < max)%N -> asks b s r s' -> asks (NTimes min max i b) s r s'
| as_rounds : forall min max i b s s1 evs r s', (i < max)%N -> ev b s (Match s1 evs) -> (max = max_count -> p_at s1 <> p_at s) ->
    asks (NTimes min max (i + 1) b) s1 r s' -> asks (NTimes min max i b) s r s'
| as_factor_one : forall p s r s', asks (NPrim p) s r s' -> asks (NFactor (Factor 1 p)) s r s'
| as_factor_many : forall n p s r s', n <> 1%N -> asks (NTimes n n 0 (NPrim p)) s r s' -> asks (NFactor (Factor n p)) s r s'
| as_term : forall f e s r s', asks (NFactor f) s r s' -> asks (NTerm (Term f e)) s r s'
(** An exception is tried on the text that its factor matched. *)
| as_except : forall f e s s1 evs w r s', ev (NFactor f) s (Match s1 evs) -> goes s w s1 ->
    asks (NFactor e) (Pst w (p_at s)) r s' -> asks (NTerm (Term f (Some e))) s r s'
| as_seq_group : forall t ts d s r s', bare_group t = Some d -> asks (NDefs d) s r s' -> asks (NSeq (t :: ts)) s r s'
| as_seq : forall t ts s r s', bare_group t = None -> asks (NTerm t) s r s' -> asks (NSeq (t :: ts)) s r s'
| as_seq_next : forall t ts s s1 evs r s', bare_group t = None -> ev (NTerm t) s (Match s1 evs) -> asks (NSeq ts) s1 r s' ->
    asks (NSeq (t :: ts)) s r s'
| as_defs_one : forall ts s r s', asks (NSeq ts) s r s' -> asks (NDefs [ts]) s r s'
| as_defs : forall d1 d2 ds s r s', asks (NAlts (d1 :: d2 :: ds)) s r s' -> asks (NDefs (d1 :: d2 :: ds)) s r s'
| as_alts : forall d ds s r s', asks (NSeq d) s r s' -> asks (NAlts (d :: ds)) s r s'
| as_alts_next : forall d ds s x s1 evs r s', ev (NSeq d) s (No x s1 evs) -> asks (NAlts ds) s r s' -> asks (NAlts (d :: ds)) s r s'.
(** A rule at a place of the text, and what its body asks for. *)
Definition leads (a b : rule * pst) : Prop := asks (NDefs (r_defs (fst a))) (snd a) (fst b) (snd b).
(** A rule that is asked for at a place where it is being tried already. *)
Definition goes_round (a : rule * pst) : Prop := clos_trans (rule * pst) leads a a.
(** On the way from the rule [id] at [s] some rule goes round. *)
Definition loops (id : str) (s : pst) : Prop :=
  exists r a, names id r /\ clos_refl_trans (rule * pst) leads (r, s) a /\ goes_round a.
End Rules.
