(** Specification of the EBNF grammar on token runs, independent of the recursive
    descent. *)
From Coq Require Import String List NArith Arith Bool.
From Verif Require Import Base Tokenizer Ast Lex SpecText SpecTok.
Import ListNotations.

(** Tokens allowed between any two symbols. *)
Definition trivia (t : token) : Prop :=
  match t with TGap _ _ | TComment _ _ => True | _ => False end.
Definition all_trivia (ts : list token) : Prop := Forall trivia ts.

Definition terminator (t : token) : Prop :=
  match t with TTerminator _ _ | TEOF _ => True | _ => False end.

(** A meta-identifier: words with gaps (no comments) between them; its name is the
    canonical form of its source text. *)
Definition word_or_gap (t : token) : Prop :=
  match t with TMeta _ _ | TGap _ _ => True | _ => False end.
Inductive g_ident : list token -> location -> str -> Prop :=
| g_ident_words : forall l s w ws,
    Forall word_or_gap w ->
    (w = [] \/ exists w' l' s', w = w' ++ [TMeta l' s']) ->
    words_of (flat_map tok_text (TMeta l s :: w)) ws ->
    g_ident (TMeta l s :: w) l (unwords ws).

(** The value of a decimal numeral. *)
Fixpoint numeral_from (acc : N) (s : str) : N :=
  match s with
  | [] => acc
  | c :: r => numeral_from (acc * 10 + (c - 48)) r
  end.
Definition numeral (s : str) : N := numeral_from 0 s.

(** [g_xxx w x]: the token run [w] is an [xxx] with tree [x].  Trivia may stand around
    every factor.  An empty sequence may carry any location. *)
Inductive g_primary : list token -> primary -> Prop :=
| g_optional : forall l s w d l' s',
    g_defs w d ->
    g_primary (TStartOption l s :: w ++ [TEndOption l' s']) (POptional l d)
| g_repeated : forall l s w d l' s',
    g_defs w d ->
    g_primary (TStartRepeat l s :: w ++ [TEndRepeat l' s']) (PRepeated l d)
| g_grouped : forall l w d l',
    g_defs w d ->
    g_primary (TStartGroup l :: w ++ [TEndGroup l']) (PGrouped l d)
| g_meta : forall w l id, g_ident w l id -> g_primary w (PMeta l id)
| g_terminal : forall l s q, g_primary [TTerminal l s q] (PTerminal l s)
| g_special : forall l s, g_primary [TSpecial l s] (PSpecial l s)
| g_empty : forall l, g_primary [] (PEmpty l)
with g_factor : list token -> factor -> Prop :=
| g_once : forall tr1 w tr2 p,
    all_trivia tr1 -> g_primary w p -> all_trivia tr2 ->
    g_factor (tr1 ++ w ++ tr2) (Factor 1 p)
| g_times : forall tr1 l s tr2 l' tr3 w tr4 p,
    all_trivia tr1 -> all_trivia tr2 -> all_trivia tr3 -> all_trivia tr4 ->
    (numeral s <= u32_max)%N -> g_primary w p ->
    g_factor (tr1 ++ TInteger l s :: tr2 ++ TRepetition l' :: tr3 ++ w ++ tr4)
             (Factor (numeral s) p)
with g_term : list token -> term -> Prop :=
| g_plain : forall w f, g_factor w f -> g_term w (Term f None)
| g_except : forall w f l w' e,
    g_factor w f -> g_factor w' e ->
    g_term (w ++ TExcept l :: w') (Term f (Some e))
with g_single : list token -> single_definition -> Prop :=
| g_last_term : forall w t, g_term w t -> g_single w [t]
| g_concat : forall w t l w' ts,
    g_term w t -> g_single w' ts -> g_single (w ++ TConcat l :: w') (t :: ts)
with g_defs : list token -> definition_list -> Prop :=
| g_last_def : forall w s, g_single w s -> g_defs w [s]
| g_alt : forall w s l c w' ds,
    g_single w s -> g_defs w' ds -> g_defs (w ++ TDefSep l c :: w') (s :: ds).

(** One terminated run: a rule, or nothing. *)
Inductive g_run : list token -> option rule -> Prop :=
| g_rule : forall tr1 w l id tr2 l' body d t,
    all_trivia tr1 -> g_ident w l id -> all_trivia tr2 ->
    g_defs body d -> terminator t ->
    g_run (tr1 ++ w ++ tr2 ++ TDefining l' :: body ++ [t]) (Some (Rule l id d))
| g_none : forall tr t, all_trivia tr -> terminator t -> g_run (tr ++ [t]) None.

(** A whole syntax. *)
Inductive g_syntax : list token -> list rule -> Prop :=
| g_end : g_syntax [] []
| g_cons : forall w o ts rs,
    g_run w o -> g_syntax ts rs -> g_syntax (w ++ ts) (opt_list o ++ rs).

(** Trees with their locations rewritten: [fe] on empty sequences, [f] elsewhere. *)
Section Relocate.
Variables fe f : location -> location.
Fixpoint reloc_primary (p : primary) : primary :=
  let rf (x : factor_ primary) := Factor (f_rep x) (reloc_primary (f_prim x)) in
  let rt (x : term_ primary) :=
    Term (rf (t_factor x)) (match t_exc x with Some e => Some (rf e) | None => None end) in
  let rd (d : list (list (term_ primary))) := map (map rt) d in
  match p with
  | POptional l d => POptional (f l) (rd d)
  | PRepeated l d => PRepeated (f l) (rd d)
  | PGrouped l d => PGrouped (f l) (rd d)
  | PMeta l id => PMeta (f l) id
  | PTerminal l s => PTerminal (f l) s
  | PSpecial l s => PSpecial (f l) s
  | PEmpty l => PEmpty (fe l)
  end.
Definition reloc_factor (x : factor) : factor := Factor (f_rep x) (reloc_primary (f_prim x)).
Definition reloc_term (x : term) : term :=
  Term (reloc_factor (t_factor x)) (option_map reloc_factor (t_exc x)).
Definition reloc_single (x : single_definition) : single_definition := map reloc_term x.
Definition reloc_defs (x : definition_list) : definition_list := map reloc_single x.
Definition reloc_rule (r : rule) : rule := Rule (f (r_loc r)) (r_id r) (reloc_defs (r_defs r)).
End Relocate.

Definition nowhere (l : location) : location := Loc [] 0 0.
Definition same (l : location) : location := l.
(** Equality up to the locations of empty sequences, and up to all locations. *)
Definition eq_but_empty (a b : rule) : Prop :=
  reloc_rule nowhere same a = reloc_rule nowhere same b.
Definition eq_but_loc (a b : rule) : Prop :=
  reloc_rule nowhere nowhere a = reloc_rule nowhere nowhere b.

(** An integer with nothing but trivia between it and a closing bracket. *)
Definition closing (t : token) : Prop :=
  match t with TEndOption _ _ | TEndRepeat _ _ | TEndGroup _ => True | _ => False end.
Definition count_before_close (ts : list token) : Prop :=
  exists a l d tr t b, ts = a ++ TInteger l d :: tr ++ t :: b /\ all_trivia tr /\ closing t.
