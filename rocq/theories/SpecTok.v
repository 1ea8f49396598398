(** Specification of the lexical level of EBNF, independent of the model's scanner. *)
From Coq Require Import String List NArith Arith Bool.
From Verif Require Import Base Tokenizer Lex SpecText.
Import ListNotations.
Open Scope N_scope.

(** Character classes. *)
Definition letter (c : char) : Prop := 97 <= c <= 122 \/ 65 <= c <= 90.
Definition digit (c : char) : Prop := 48 <= c <= 57.
Definition printable (c : char) : Prop := 32 <= c <= 126.

(** The source spelling of a token. *)
Definition tok_text (t : token) : str :=
  match t with
  | TRepetition _ => [c_star]
  | TExcept _ => [c_minus]
  | TConcat _ => [c_comma]
  | TDefSep _ c => [c]
  | TDefining _ => [c_eq]
  | TTerminator _ c => [c]
  | TStartOption _ s | TEndOption _ s | TStartRepeat _ s | TEndRepeat _ s => s
  | TStartGroup _ => [c_lpar]
  | TEndGroup _ => [c_rpar]
  | TEOF _ => []
  | TMeta _ s | TInteger _ s | TGap _ s => s
  | TTerminal _ s q => q :: s ++ [q]
  | TComment _ s => [c_lpar; c_star] ++ s ++ [c_star; c_rpar]
  | TSpecial _ s => c_quest :: s ++ [c_quest]
  end.

(** The number of (possibly overlapping) occurrences of the digram [a b]. *)
Fixpoint digrams (a b : char) (s : str) : nat :=
  match s with
  | x :: ((y :: _) as r) =>
      ((if N.eqb x a && N.eqb y b then 1 else 0) + digrams a b r)%nat
  | _ => 0%nat
  end.
Notation opens := (digrams c_lpar c_star).
Notation closes := (digrams c_star c_rpar).

(** [s] can stand between the comment brackets: counting from the star of the
    opening bracket, the first prefix with more closing than opening digrams is the
    whole comment. *)
Definition comment_text (s : str) : Prop :=
  Forall (fun c => printable c \/ gap_char c) s /\
  (forall p q, c_star :: s ++ [c_star; c_rpar] = p ++ q -> q <> [] ->
               (closes p <= opens p)%nat) /\
  closes (c_star :: s ++ [c_star; c_rpar])
  = S (opens (c_star :: s ++ [c_star; c_rpar])).

(** Tokens with a legal spelling.  [TEOF] is not spelt. *)
Definition valid_tok (t : token) : Prop :=
  match t with
  | TRepetition _ | TExcept _ | TConcat _ | TDefining _
  | TStartGroup _ | TEndGroup _ => True
  | TDefSep _ c => c = c_bar \/ c = c_excl \/ c = c_slash
  | TTerminator _ c => c = c_semi \/ c = c_dot
  | TStartOption _ s => s = [c_lbrk] \/ s = [c_lpar; c_slash]
  | TEndOption _ s => s = [c_rbrk] \/ s = [c_slash; c_rpar]
  | TStartRepeat _ s => s = [c_lbrace] \/ s = [c_lpar; c_colon]
  | TEndRepeat _ s => s = [c_rbrace] \/ s = [c_colon; c_rpar]
  | TEOF _ => False
  | TMeta _ s =>
      exists c r, s = c :: r /\ letter c /\ Forall (fun c => letter c \/ digit c) r
  | TTerminal _ s q =>
      (q = c_squote \/ q = c_dquote) /\ s <> [] /\ Forall printable s /\ ~ In q s
  | TInteger _ s => s <> [] /\ Forall digit s
  | TComment _ s => comment_text s
  | TSpecial _ s => Forall (fun c => c <> c_quest /\ (printable c \/ gap_char c)) s
  | TGap _ s => s <> [] /\ Forall gap_char s
  end.

(** What may come directly after a token ([None]: the end of the text). *)
Definition follows (t : token) (next : option char) : Prop :=
  match next with
  | None => True
  | Some c =>
      match t with
      | TMeta _ _ => ~ letter c /\ ~ digit c
      | TInteger _ _ => ~ digit c
      | TGap _ _ => ~ gap_char c
      | TStartGroup _ => c <> c_star /\ c <> c_slash /\ c <> c_colon
      | TDefSep _ d => d = c_slash -> c <> c_rpar
      | TRepetition _ => c <> c_rpar
      | _ => True
      end
  end.

(** [lexes l s ts]: the text [s], starting at [l], is cut into the tokens [ts]. *)
Inductive lexes : location -> str -> list token -> Prop :=
| lexes_eof : forall l, lexes l [] [TEOF l]
| lexes_tok : forall l l' t rest ts,
    valid_tok t -> tok_loc t = l -> follows t (hd_error rest) ->
    reaches l (tok_text t) l' -> lexes l' rest ts ->
    lexes l (tok_text t ++ rest) (t :: ts).
