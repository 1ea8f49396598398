(** What a lexer keeps of the text it was given, and when that exceeds a limit. *)
From Coq Require Import String List NArith Arith Bool.
From Verif Require Import Base Tokenizer Ast Lex SpecText SpecTok SpecLex.
Import ListNotations.
Open Scope nat_scope.

(** Nothing that comes behind [t] makes another token of it. *)
Definition ends_itself (t : token) : Prop := forall c, follows t (Some c).
(** With [rest] behind it, [t] is certain. *)
Definition certain (t : token) (rest : str) : Prop :=
  match rest with [] => ends_itself t | c :: _ => follows t (Some c) end.
(** [keeps l s ts l' b]: of the text [s], starting at [l], the tokens [ts] are certain; what
    is left is [b], at [l'], which begins with no certain token. *)
Inductive keeps : location -> str -> list token -> location -> str -> Prop :=
| ks_left : forall l b, (forall t rest, b = tok_text t ++ rest -> valid_tok t -> tok_loc t = l -> ~ certain t rest) ->
    keeps l b [] l b
| ks_token : forall l l1 t rest ts l' b, valid_tok t -> tok_loc t = l -> certain t rest ->
    reaches l (tok_text t) l1 -> keeps l1 rest ts l' b -> keeps l (tok_text t ++ rest) (t :: ts) l' b.

(** The calls for [fs] succeed, no limit given. *)
Definition succeeds (name : str) (fs : list fragment) : Prop :=
  exists lx rs, feed (lx_new name 0) fs = (lx, Ok rs).
(** After the calls for [pre], [have] characters from [l] on are kept, and [f] adds [add],
    which together are more than [m]. *)
Definition overflows (name : str) (m : N) (pre : list fragment) (f : fragment) (l : location) (have add : N) : Prop :=
  exists ts b, keeps (loc_new name) (frags_text pre) ts l b /\
    have = N.of_nat (length b) /\ add = N.of_nat (length (frag_text f)) /\ (m < have + add)%N.
(** The first call that exceeds [m] is the one for [f]. *)
Definition first_overflow (name : str) (m : N) (fs : list fragment) (l : location) (have add : N) : Prop :=
  exists pre f post, fs = pre ++ f :: post /\ succeeds name pre /\ overflows name m pre f l have add /\
    forall pre' f' post' l' have' add', pre = pre' ++ f' :: post' -> ~ overflows name m pre' f' l' have' add'.
(** Every token has less than [m] characters, or just [m], and nothing needs to be seen
    behind it. *)
Definition roomy (m : N) (ts : list token) : Prop :=
  forall pre t post, ts = pre ++ t :: post ->
    (N.of_nat (length (tok_text t)) < m)%N \/
    (N.of_nat (length (tok_text t)) = m /\ (ends_itself t \/ exists l, post = [TEOF l])).
