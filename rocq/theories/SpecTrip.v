(** Specification of the token runs on which reading a rule comes to a repetition count
    with nothing after it, independent of the recursive descent. *)
From Coq Require Import String List NArith Arith Bool.
From Verif Require Import Base Tokenizer Ast Lex SpecText SpecTok SpecGram.
Import ListNotations.

(** The three kinds of brackets. *)
Inductive bracket := BOption | BRepeat | BGroup.
Definition opener (k : bracket) (t : token) : Prop :=
  match k, t with
  | BOption, TStartOption _ _ | BRepeat, TStartRepeat _ _ | BGroup, TStartGroup _ => True
  | _, _ => False
  end.
Definition closer (k : bracket) (t : token) : Prop :=
  match k, t with
  | BOption, TEndOption _ _ | BRepeat, TEndRepeat _ _ | BGroup, TEndGroup _ => True
  | _, _ => False
  end.

(** The brackets of one kind are in pairs; the other kinds do not matter. *)
Inductive paired (k : bracket) : list token -> Prop :=
| paired_none : paired k []
| paired_other : forall t w, ~ opener k t -> ~ closer k t -> paired k w -> paired k (t :: w)
| paired_pair : forall t w t' w',
    opener k t -> paired k w -> closer k t' -> paired k w' ->
    paired k (t :: w ++ t' :: w').

(** [trips_xxx w]: the tokens [w], all up to the end of the bracket (or of the rule),
    start like an [xxx], and the first thing wrong with them is a count at the very end of
    a bracket: before it comes only what the grammar allows, after it only trivia. *)
Inductive trips_primary : list token -> Prop :=
| trips_inside : forall tr k t w t' rest,
    all_trivia tr -> opener k t -> paired k w -> closer k t' -> trips_defs w ->
    trips_primary (tr ++ t :: w ++ t' :: rest)
with trips_factor : list token -> Prop :=
| trips_here : forall tr1 l s tr2,
    all_trivia tr1 -> all_trivia tr2 -> (numeral s <= u32_max)%N ->
    trips_factor (tr1 ++ TInteger l s :: tr2)
| trips_once : forall w, trips_primary w -> trips_factor w
| trips_times : forall tr1 l s tr2 l' w,
    all_trivia tr1 -> all_trivia tr2 -> (numeral s <= u32_max)%N -> trips_primary w ->
    trips_factor (tr1 ++ TInteger l s :: tr2 ++ TRepetition l' :: w)
with trips_term : list token -> Prop :=
| trips_plain : forall w, trips_factor w -> trips_term w
| trips_except : forall w f l w',
    g_factor w f -> trips_factor w' -> trips_term (w ++ TExcept l :: w')
with trips_single : list token -> Prop :=
| trips_first_term : forall w, trips_term w -> trips_single w
| trips_next_term : forall w t l w',
    g_term w t -> trips_single w' -> trips_single (w ++ TConcat l :: w')
with trips_defs : list token -> Prop :=
| trips_first_def : forall w, trips_single w -> trips_defs w
| trips_next_def : forall w s l c w',
    g_single w s -> trips_defs w' -> trips_defs (w ++ TDefSep l c :: w').

(** One terminated run that trips. *)
Definition trips_run (ts : list token) : Prop :=
  exists tr1 w l id tr2 l' body t,
    ts = tr1 ++ w ++ tr2 ++ TDefining l' :: body ++ [t] /\
    all_trivia tr1 /\ g_ident w l id /\ all_trivia tr2 /\
    trips_defs (body ++ [t]) /\ terminator t /\ ~ Exists terminator body.

(** A token list whose first bad run trips: correct runs, then a run that trips. *)
Definition trips (ts : list token) : Prop :=
  exists w rs run rest, ts = w ++ run ++ rest /\ g_syntax w rs /\ trips_run run.
