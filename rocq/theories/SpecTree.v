(** Well-formed syntax trees, and the symbols of a token list. *)
From Coq Require Import String List NArith Arith Bool.
From Verif Require Import Base Tokenizer Ast Lex SpecText SpecTok SpecGram.
Import ListNotations.

(** A name: one or more words, each a letter and then letters and digits, separated by
    single spaces. *)
Definition word (s : str) : Prop :=
  exists c r, s = c :: r /\ letter c /\ Forall (fun c => letter c \/ digit c) r.
Definition name_ok (id : str) : Prop :=
  exists ws, ws <> [] /\ Forall word ws /\ id = unwords ws.

Inductive wf_primary : primary -> Prop :=
| wf_optional : forall l d, wf_defs d -> wf_primary (POptional l d)
| wf_repeated : forall l d, wf_defs d -> wf_primary (PRepeated l d)
| wf_grouped : forall l d, wf_defs d -> wf_primary (PGrouped l d)
| wf_meta : forall l id, name_ok id -> wf_primary (PMeta l id)
| wf_terminal : forall l s,
    s <> [] -> Forall printable s -> ~ (In c_squote s /\ In c_dquote s) -> wf_primary (PTerminal l s)
| wf_special : forall l s,
    Forall (fun c => c <> c_quest /\ (printable c \/ gap_char c)) s -> wf_primary (PSpecial l s)
| wf_empty : forall l, wf_primary (PEmpty l)
with wf_factor : factor -> Prop :=
| wf_factor_intro : forall n p, (n <= 4294967295)%N -> wf_primary p -> wf_factor (Factor n p)
with wf_term : term -> Prop :=
| wf_plain : forall f, wf_factor f -> wf_term (Term f None)
| wf_except : forall f e, wf_factor f -> wf_factor e -> wf_term (Term f (Some e))
with wf_single : single_definition -> Prop :=
| wf_single_one : forall t, wf_term t -> wf_single [t]
| wf_single_more : forall t ts, wf_term t -> wf_single ts -> wf_single (t :: ts)
with wf_defs : definition_list -> Prop :=
| wf_defs_one : forall s, wf_single s -> wf_defs [s]
| wf_defs_more : forall s ds, wf_single s -> wf_defs ds -> wf_defs (s :: ds).

Definition wf_rule (r : rule) : Prop := name_ok (r_id r) /\ wf_defs (r_defs r).

(** The symbols of a token list: trivia dropped, the words of an identifier merged,
    locations and spelling variants forgotten. *)
Inductive symbol :=
| SId (id : str) | SConcat | SDefSep | STerm | SDefining | SExcept | STimes
| SOpenOption | SCloseOption | SOpenRepeat | SCloseRepeat | SOpenGroup | SCloseGroup
| SInteger (n : N) | STerminal (s : str) | SSpecial (s : str).

Definition symbol_of (t : token) : option symbol :=
  match t with
  | TConcat _ => Some SConcat
  | TDefSep _ _ => Some SDefSep
  | TTerminator _ _ | TEOF _ => Some STerm
  | TDefining _ => Some SDefining
  | TExcept _ => Some SExcept
  | TRepetition _ => Some STimes
  | TStartOption _ _ => Some SOpenOption
  | TEndOption _ _ => Some SCloseOption
  | TStartRepeat _ _ => Some SOpenRepeat
  | TEndRepeat _ _ => Some SCloseRepeat
  | TStartGroup _ => Some SOpenGroup
  | TEndGroup _ => Some SCloseGroup
  | TInteger _ s => Some (SInteger (numeral s))
  | TTerminal _ s _ => Some (STerminal s)
  | TSpecial _ s => Some (SSpecial s)
  | TMeta _ _ | TGap _ _ | TComment _ _ => None
  end.

(** No further word after the gaps that start the list. *)
Definition word_done (rest : list token) : Prop :=
  forall g l s r, Forall (fun t => exists l s, t = TGap l s) g -> rest <> g ++ TMeta l s :: r.

Inductive symbols : list token -> list symbol -> Prop :=
| sy_nil : symbols [] []
| sy_trivia : forall t ts ss, trivia t -> symbols ts ss -> symbols (t :: ts) ss
| sy_ident : forall w l id rest ss,
    g_ident w l id -> word_done rest -> symbols rest ss -> symbols (w ++ rest) (SId id :: ss)
| sy_symbol : forall t x ts ss,
    symbol_of t = Some x -> symbols ts ss -> symbols (t :: ts) (x :: ss).

(** A token without its location. *)
Definition erase (t : token) : token :=
  let n := Loc [] 0 0 in
  match t with
  | TRepetition _ => TRepetition n | TExcept _ => TExcept n | TConcat _ => TConcat n
  | TDefSep _ c => TDefSep n c | TDefining _ => TDefining n | TTerminator _ c => TTerminator n c
  | TStartOption _ s => TStartOption n s | TEndOption _ s => TEndOption n s
  | TStartRepeat _ s => TStartRepeat n s | TEndRepeat _ s => TEndRepeat n s
  | TStartGroup _ => TStartGroup n | TEndGroup _ => TEndGroup n | TEOF _ => TEOF n
  | TMeta _ s => TMeta n s | TTerminal _ s q => TTerminal n s q | TInteger _ s => TInteger n s
  | TComment _ s => TComment n s | TSpecial _ s => TSpecial n s | TGap _ s => TGap n s
  end.

(** [group_ok x]: no parenthesised group in [x] is displayed with a star before its
    closing parenthesis (as [(3* )] is). *)
Definition ends_star (s : str) : Prop := exists x, s = x ++ [c_star].
Inductive group_ok : primary -> Prop :=
| go_optional : forall l d, group_ok_defs d -> group_ok (POptional l d)
| go_repeated : forall l d, group_ok_defs d -> group_ok (PRepeated l d)
| go_grouped : forall l d, group_ok_defs d -> ~ ends_star (show_defs d) -> group_ok (PGrouped l d)
| go_meta : forall l id, group_ok (PMeta l id)
| go_terminal : forall l s, group_ok (PTerminal l s)
| go_special : forall l s, group_ok (PSpecial l s)
| go_empty : forall l, group_ok (PEmpty l)
with group_ok_term : term -> Prop :=
| go_plain : forall n p, group_ok p -> group_ok_term (Term (Factor n p) None)
| go_except : forall n p m q, group_ok p -> group_ok q ->
    group_ok_term (Term (Factor n p) (Some (Factor m q)))
with group_ok_single : single_definition -> Prop :=
| go_single_nil : group_ok_single []
| go_single_cons : forall t ts, group_ok_term t -> group_ok_single ts -> group_ok_single (t :: ts)
with group_ok_defs : definition_list -> Prop :=
| go_defs_nil : group_ok_defs []
| go_defs_cons : forall s ds, group_ok_single s -> group_ok_defs ds -> group_ok_defs (s :: ds).
Definition group_ok_rule (r : rule) : Prop := group_ok_defs (r_defs r).
