(** The grammar of EBNF with all locations: a tree and where each part of it stands. *)
From Coq Require Import String List NArith Arith Bool.
From Verif Require Import Base Tokenizer Ast Lex SpecText SpecTok SpecGram.
Import ListNotations.

(** The location of the last token of a run between brackets. *)
Definition unknown_loc : location := loc_new (of_string "<unknown>").
Definition last_loc (w : list token) : location := last (map tok_loc w) unknown_loc.

(** [spot_xxx e w x]: the token run [w] is an [xxx] with tree [x].  An empty sequence carries
    the location of the symbol that ends it; at the end of the run, where [e] is meant, this
    is the terminator of the rule, or, between brackets, the last token before the closing
    bracket. *)
Inductive spot_primary : location -> list token -> primary -> Prop :=
| sp_optional : forall e l s w d l' s', spot_defs (last_loc w) w d ->
    spot_primary e (TStartOption l s :: w ++ [TEndOption l' s']) (POptional l d)
| sp_repeated : forall e l s w d l' s', spot_defs (last_loc w) w d ->
    spot_primary e (TStartRepeat l s :: w ++ [TEndRepeat l' s']) (PRepeated l d)
| sp_grouped : forall e l w d l', spot_defs (last_loc w) w d ->
    spot_primary e (TStartGroup l :: w ++ [TEndGroup l']) (PGrouped l d)
| sp_meta : forall e w l id, g_ident w l id -> spot_primary e w (PMeta l id)
| sp_terminal : forall e l s q, spot_primary e [TTerminal l s q] (PTerminal l s)
| sp_special : forall e l s, spot_primary e [TSpecial l s] (PSpecial l s)
| sp_empty : forall e, spot_primary e [] (PEmpty e)
with spot_factor : location -> list token -> factor -> Prop :=
| sp_once : forall e tr1 w tr2 p, all_trivia tr1 -> spot_primary e w p -> all_trivia tr2 ->
    spot_factor e (tr1 ++ w ++ tr2) (Factor 1 p)
| sp_times : forall e tr1 l s tr2 l' tr3 w tr4 p, all_trivia tr1 -> all_trivia tr2 -> all_trivia tr3 -> all_trivia tr4 ->
    (numeral s <= u32_max)%N -> spot_primary e w p ->
    spot_factor e (tr1 ++ TInteger l s :: tr2 ++ TRepetition l' :: tr3 ++ w ++ tr4) (Factor (numeral s) p)
with spot_term : location -> list token -> term -> Prop :=
| sp_plain : forall e w f, spot_factor e w f -> spot_term e w (Term f None)
| sp_except : forall e w f l w' x, spot_factor l w f -> spot_factor e w' x ->
    spot_term e (w ++ TExcept l :: w') (Term f (Some x))
with spot_single : location -> list token -> single_definition -> Prop :=
| sp_last_term : forall e w t, spot_term e w t -> spot_single e w [t]
| sp_concat : forall e w t l w' ts, spot_term l w t -> spot_single e w' ts ->
    spot_single e (w ++ TConcat l :: w') (t :: ts)
with spot_defs : location -> list token -> definition_list -> Prop :=
| sp_last_def : forall e w s, spot_single e w s -> spot_defs e w [s]
| sp_alt : forall e w s l c w' ds, spot_single l w s -> spot_defs e w' ds ->
    spot_defs e (w ++ TDefSep l c :: w') (s :: ds).

(** One terminated run: a rule at the place of its name, or nothing. *)
Inductive spot_run : list token -> option rule -> Prop :=
| sp_rule : forall tr1 w l id tr2 l' body d t, all_trivia tr1 -> g_ident w l id -> all_trivia tr2 ->
    spot_defs (tok_loc t) body d -> terminator t ->
    spot_run (tr1 ++ w ++ tr2 ++ TDefining l' :: body ++ [t]) (Some (Rule l id d))
| sp_none : forall tr t, all_trivia tr -> terminator t -> spot_run (tr ++ [t]) None.
Inductive spot_syntax : list token -> list rule -> Prop :=
| sp_end : spot_syntax [] []
| sp_cons : forall w o ts rs, spot_run w o -> spot_syntax ts rs -> spot_syntax (w ++ ts) (opt_list o ++ rs).

(** An opening bracket and a closing bracket with nothing in between, not even a gap. *)
Definition opening (t : token) : Prop :=
  match t with TStartOption _ _ | TStartRepeat _ _ | TStartGroup _ => True | _ => False end.
Definition hollow (ts : list token) : Prop := exists a t t' b, ts = a ++ t :: t' :: b /\ opening t /\ closing t'.
