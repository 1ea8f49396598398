(** Specification of event lists, and classes of rules and scanners. *)
From Coq Require Import String List NArith Arith Bool.
From Verif Require Import Base Ast Graph SpecText SpecSyntax SpecParse.
Import ListNotations.
Open Scope nat_scope.

(** Every Begin is closed by an End of the same label and definition, in stack order. *)
Inductive nested : list event -> Prop :=
| ne_nil : nested []
| ne_token : forall d l t r, nested r -> nested (EvToken d l t :: r)
| ne_pair : forall d l l2 b a r, nested a -> nested r -> nested (EvBegin d l b :: a ++ EvEnd d l2 b :: r).

(** The texts of the token events, one after the other. *)
Fixpoint tokens (es : list event) : str :=
  match es with
  | [] => []
  | EvToken _ _ t :: r => t ++ tokens r
  | _ :: r => tokens r
  end.
(** The text of each token event lies ahead of [s], at the location of the event. *)
Definition in_text (s : pst) (es : list event) : Prop :=
  forall d l t, In (EvToken d l t) es ->
  exists w s1 s2, goes s w s1 /\ goes s1 t s2 /\ l = p_at s1.
(** Read one after the other from [s], the tokens cover the text up to [s']; every event
    carries the location reached when it comes. *)
Inductive trail : pst -> list event -> pst -> Prop :=
| tr_nil : forall s, trail s [] s
| tr_token : forall s d t s1 r s', goes s t s1 -> trail s1 r s' -> trail s (EvToken d (p_at s) t :: r) s'
| tr_begin : forall s d b r s', trail s r s' -> trail s (EvBegin d (p_at s) b :: r) s'
| tr_end : forall s d b r s', trail s r s' -> trail s (EvEnd d (p_at s) b :: r) s'.

(** The filter of empty pairs, by positions: [keeps es i] unless [i] and [i + 1], or [i - 1]
    and [i], are a Begin and an End (position 0 always stays and is part of no pair). *)
Definition is_begin (e : option event) : bool := match e with Some (EvBegin _ _ _) => true | _ => false end.
Definition is_end (e : option event) : bool := match e with Some (EvEnd _ _ _) => true | _ => false end.
Definition pair_at (es : list event) (i : nat) : bool :=
  Nat.leb 1 i && is_begin (nth_error es i) && is_end (nth_error es (S i)).
Definition keeps (es : list event) (i : nat) : bool :=
  negb (pair_at es i) && negb (Nat.leb 1 i && pair_at es (i - 1)).
Definition without_pairs (es : list event) : list event :=
  map snd (filter (fun ie => keeps es (fst ie)) (combine (seq 0 (length es)) es)).
(** A list of empty pairs. *)
Inductive pairs : list event -> Prop :=
| pa_nil : pairs []
| pa_more : forall d l b d2 l2 b2 r, pairs r -> pairs (EvBegin d l b :: EvEnd d2 l2 b2 :: r).

(** ** Scanners *)
Section Config.
Variable cfg : config.
(** Matches emit nested events ... *)
Definition nesting_scanners : Prop := forall l c s s' evs, scanned (cfg l c) l s (SMatch s' evs) -> nested evs.
(** ... tokens that are in the text ... *)
Definition honest_scanners : Prop := forall l c s s' evs, scanned (cfg l c) l s (SMatch s' evs) -> in_text s evs.
(** ... that spell exactly what was read. *)
Definition spelling_scanners : Prop := forall l c s s' evs, scanned (cfg l c) l s (SMatch s' evs) -> trail s evs s'.
Definition no_forwarding : Prop := forall l c s id s', ~ scanned (cfg l c) l s (SForward id s').
(** The scanners that come with the library. *)
Definition library_scanner (sc : scanner) : Prop := match sc with ScUser _ _ => False | _ => True end.

(** ** Rules *)
(** Never fails to match. *)
Inductive sure : node -> Prop :=
| su_empty : forall l, sure (NPrim (PEmpty l))
| su_optional : forall l d, sure (NPrim (POptional l d))
| su_repeated : forall l d, sure (NPrim (PRepeated l d))
| su_group : forall l d, sure (NDefs d) -> sure (NPrim (PGrouped l d))
| su_factor : forall n p, sure (NPrim p) -> sure (NFactor (Factor n p))
| su_term : forall f, sure (NFactor f) -> sure (NTerm (Term f None))
| su_nil : sure (NSeq [])
| su_cons : forall t ts, sure (NTerm t) -> sure (NSeq ts) -> sure (NSeq (t :: ts))
| su_defs : forall d ds, In d ds -> sure (NSeq d) -> sure (NDefs ds)
| su_alts : forall d ds, In d ds -> sure (NSeq d) -> sure (NAlts ds)
| su_times0 : forall max i b, sure (NTimes 0 max i b)
| su_times : forall min max i b, sure b -> sure (NTimes min max i b).
(** Leaves no events behind when it fails. *)
Inductive clean : node -> Prop :=
| cl_sure : forall n, sure n -> clean n
| cl_terminal : forall l w, clean (NPrim (PTerminal l w))
| cl_special : forall l w, clean (NPrim (PSpecial l w))
| cl_meta : forall l w, clean (NPrim (PMeta l w))
| cl_ref : forall l w, clean (NRef l w)
| cl_group : forall l d, clean (NDefs d) -> clean (NPrim (PGrouped l d))
| cl_factor1 : forall p, clean (NPrim p) -> clean (NFactor (Factor 1 p))
| cl_factor : forall n p, n <> 1%N -> clean (NFactor (Factor n p))
| cl_term : forall f, clean (NFactor f) -> clean (NTerm (Term f None))
| cl_except : forall f e, clean (NTerm (Term f (Some e)))
| cl_seq : forall t ts, clean (NTerm t) -> sure (NSeq ts) -> clean (NSeq (t :: ts))
| cl_defs1 : forall d, clean (NSeq d) -> clean (NDefs [d])
| cl_defs : forall d1 d2 ds, clean (NDefs (d1 :: d2 :: ds))
| cl_alts : forall ds, clean (NAlts ds)
| cl_times : forall min max i b, clean (NTimes min max i b).
(** The bodies of all optional- and repeated-sequences are clean. *)
Inductive tidy : node -> Prop :=
| td_terminal : forall l w, tidy (NPrim (PTerminal l w))
| td_special : forall l w, tidy (NPrim (PSpecial l w))
| td_meta : forall l w, tidy (NPrim (PMeta l w))
| td_ref : forall l w, tidy (NRef l w)
| td_empty : forall l, tidy (NPrim (PEmpty l))
| td_optional : forall l d, clean (NDefs d) -> tidy (NDefs d) -> tidy (NPrim (POptional l d))
| td_repeated : forall l d, clean (NDefs d) -> tidy (NDefs d) -> tidy (NPrim (PRepeated l d))
| td_group : forall l d, tidy (NDefs d) -> tidy (NPrim (PGrouped l d))
| td_factor : forall n p, tidy (NPrim p) -> tidy (NFactor (Factor n p))
| td_term : forall f e, tidy (NFactor f) -> tidy (NTerm (Term f e))
| td_nil : tidy (NSeq [])
| td_seq : forall t ts, tidy (NTerm t) -> tidy (NSeq ts) -> tidy (NSeq (t :: ts))
| td_defs : forall ds, Forall (fun d => tidy (NSeq d)) ds -> tidy (NDefs ds)
| td_alts : forall ds, Forall (fun d => tidy (NSeq d)) ds -> tidy (NAlts ds)
| td_times : forall min max i b, clean b -> tidy b -> tidy (NTimes min max i b)
| td_times_exact : forall n i b, tidy b -> tidy (NTimes n n i b).

(** A group that is a term by itself is the last term of its definition. *)
Inductive groups_last : node -> Prop :=
| gl_terminal : forall l w, groups_last (NPrim (PTerminal l w))
| gl_special : forall l w, groups_last (NPrim (PSpecial l w))
| gl_meta : forall l w, groups_last (NPrim (PMeta l w))
| gl_empty : forall l, groups_last (NPrim (PEmpty l))
| gl_optional : forall l d, groups_last (NDefs d) -> groups_last (NPrim (POptional l d))
| gl_repeated : forall l d, groups_last (NDefs d) -> groups_last (NPrim (PRepeated l d))
| gl_group : forall l d, groups_last (NDefs d) -> groups_last (NPrim (PGrouped l d))
| gl_factor : forall n p, groups_last (NPrim p) -> groups_last (NFactor (Factor n p))
| gl_term : forall f e, groups_last (NFactor f) -> groups_last (NTerm (Term f e))
| gl_nil : groups_last (NSeq [])
| gl_last : forall t, groups_last (NTerm t) -> groups_last (NSeq [t])
| gl_seq : forall t ts, bare_group t = None -> groups_last (NTerm t) -> groups_last (NSeq ts) -> groups_last (NSeq (t :: ts))
| gl_defs : forall ds, Forall (fun d => groups_last (NSeq d)) ds -> groups_last (NDefs ds).

(** ** The language of a rule *)
Variable rules : list rule.
Inductive lang : node -> str -> Prop :=
| lg_terminal : forall l w, lang (NPrim (PTerminal l w)) w
| lg_empty : forall l, lang (NPrim (PEmpty l)) []
| lg_special : forall l c s w s' e, scanned (cfg l c) l s (SMatch s' e) -> goes s w s' -> lang (NPrim (PSpecial l c)) w
| lg_meta : forall l id r w, names rules id r -> lang (NDefs (r_defs r)) w -> lang (NPrim (PMeta l id)) w
| lg_none : forall l d, lang (NPrim (POptional l d)) []
| lg_optional : forall l d w, lang (NDefs d) w -> lang (NPrim (POptional l d)) w
| lg_stop : forall l d, lang (NPrim (PRepeated l d)) []
| lg_repeated : forall l d w1 w2, lang (NDefs d) w1 -> lang (NPrim (PRepeated l d)) w2 -> lang (NPrim (PRepeated l d)) (w1 ++ w2)
| lg_group : forall l d w, lang (NDefs d) w -> lang (NPrim (PGrouped l d)) w
| lg_zero : forall p, lang (NFactor (Factor 0 p)) []
| lg_times : forall n p w1 w2, lang (NPrim p) w1 -> lang (NFactor (Factor n p)) w2 -> lang (NFactor (Factor (N.succ n) p)) (w1 ++ w2)
| lg_term : forall f e w, lang (NFactor f) w -> lang (NTerm (Term f e)) w
| lg_nil : lang (NSeq []) []
| lg_seq : forall t ts w1 w2, lang (NTerm t) w1 -> lang (NSeq ts) w2 -> lang (NSeq (t :: ts)) (w1 ++ w2)
| lg_defs : forall ds d w, In d ds -> lang (NSeq d) w -> lang (NDefs ds) w.
End Config.
