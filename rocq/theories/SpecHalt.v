(** What a parse comes to try, and which constructs stop it. *)
From Coq Require Import String List NArith Arith Bool Relations.
From Verif Require Import Base Ast Graph SpecText SpecSyntax SpecParse.
Import ListNotations.
Open Scope nat_scope.

Section Rules.
Variable rules : list rule.
Variable cfg : config.
Notation ev := (ev rules cfg).
Notation names := (names rules).
(** A construct at a place of the text. *)
Definition attempt := (node * pst)%type.
(** [onto a b]: trying [a] the parse comes to try [b], directly. *)
Inductive onto : attempt -> attempt -> Prop :=
| ts_meta : forall l id s, onto (NPrim (PMeta l id), s) (NRef l id, s)
| ts_ref : forall l id r s, names id r -> onto (NRef l id, s) (NDefs (r_defs r), s)
| ts_forward : forall l c s id s1, scanned (cfg l c) l s (SForward id s1) -> defined rules id \/ (exists r, In r rules /\ dollar id r) ->
    onto (NPrim (PSpecial l c), s) (NFwd id, s1)
| ts_fwd : forall id r s, names id r -> onto (NFwd id, s) (NDefs (r_defs r), s)
| ts_fwd_alias : forall id r s, In r rules -> dollar id r -> onto (NFwd id, s) (NRef (r_loc r) (r_id r), s)
| ts_optional : forall l d s, onto (NPrim (POptional l d), s) (NTimes 0 1 0 (NDefs d), s)
| ts_repeated : forall l d s, onto (NPrim (PRepeated l d), s) (NTimes 0 max_count 0 (NDefs d), s)
| ts_group : forall l d s, onto (NPrim (PGrouped l d), s) (NDefs d, s)
| ts_round : forall min max i b s, (i < max)%N -> onto (NTimes min max i b, s) (b, s)
| ts_rounds : forall min max i b s s1 evs, (i < max)%N -> ev b s (Match s1 evs) -> (max = max_count -> p_at s1 <> p_at s) ->
    onto (NTimes min max i b, s) (NTimes min max (i + 1) b, s1)
| ts_factor_one : forall p s, onto (NFactor (Factor 1 p), s) (NPrim p, s)
| ts_factor_many : forall n p s, n <> 1%N -> onto (NFactor (Factor n p), s) (NTimes n n 0 (NPrim p), s)
| ts_term : forall f e s, onto (NTerm (Term f e), s) (NFactor f, s)
(** An exception is tried on the text that its factor matched. *)
| ts_except : forall f e s s1 evs w, ev (NFactor f) s (Match s1 evs) -> goes s w s1 ->
    onto (NTerm (Term f (Some e)), s) (NFactor e, Pst w (p_at s))
| ts_seq_group : forall t ts d s, bare_group t = Some d -> onto (NSeq (t :: ts), s) (NDefs d, s)
| ts_seq : forall t ts s, bare_group t = None -> onto (NSeq (t :: ts), s) (NTerm t, s)
| ts_seq_next : forall t ts s s1 evs, bare_group t = None -> ev (NTerm t) s (Match s1 evs) -> onto (NSeq (t :: ts), s) (NSeq ts, s1)
| ts_defs_one : forall ts s, onto (NDefs [ts], s) (NSeq ts, s)
| ts_defs : forall d1 d2 ds s, onto (NDefs (d1 :: d2 :: ds), s) (NAlts (d1 :: d2 :: ds), s)
| ts_alts : forall d ds s, onto (NAlts (d :: ds), s) (NSeq d, s)
| ts_alts_next : forall d d' ds s x s1 evs, ev (NSeq d) s (No x s1 evs) -> onto (NAlts (d :: d' :: ds), s) (NAlts (d' :: ds), s).
(** Parsing with the rule [id] from [s], the parse comes to try [n] at [s']. *)
Definition comes_to (id : str) (s : pst) (n : node) (s' : pst) : Prop :=
  exists r, names id r /\ clos_refl_trans attempt onto (NRef (r_loc r) (r_id r), s) (n, s').

(** A round of a repetition without an upper bound that matches nothing. *)
Definition spins (n : node) (s : pst) : Prop :=
  exists min i b s' evs, n = NTimes min max_count i b /\ (i < max_count)%N /\ ev b s (Match s' evs) /\ p_at s' = p_at s.
(** A special sequence that forwards to a rule that does not exist. *)
Definition forwards_nowhere (n : node) (s : pst) (e : error) : Prop :=
  exists l c id s1, n = NPrim (PSpecial l c) /\ scanned (cfg l c) l s (SForward id s1) /\
    ~ defined rules id /\ (forall r, In r rules -> ~ dollar id r) /\
    e = Error_ (p_at s) (MNoSuchForward id (scanner_symbol (cfg l c)) l).
(** A special sequence whose scanner gives an error. *)
Definition scanner_fails (n : node) (s : pst) (e : error) : Prop :=
  exists l c, n = NPrim (PSpecial l c) /\ scanned (cfg l c) l s (SFail e).
(** What stops a parse with an error. *)
Definition stops_with (n : node) (s : pst) (e : error) : Prop :=
  spins n s /\ e = Error_ (p_at s) MLivelock \/ forwards_nowhere n s e \/ scanner_fails n s e.
(** A reference to a rule that does not exist. *)
Definition dangles (n : node) : Prop := exists l id, n = NRef l id /\ ~ defined rules id.
End Rules.
(** The message of an error that is about the text. *)
Definition expects (e : error) : Prop := exists what act, e_msg e = MExpected what act.
