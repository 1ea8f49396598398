(** Specifications about identifiers and locations, independent of the model. *)
From Coq Require Import List NArith Arith Bool.
From Verif Require Import Base.
Import ListNotations.

(** Gap-separator characters of ISO 14977: space, tab, newline, vertical tab, form
    feed (and carriage return, which the library adds). *)
Definition gap_char (c : char) : Prop :=
  c = 32%N \/ c = 9%N \/ c = 13%N \/ c = 10%N \/ c = 11%N \/ c = 12%N.

(** [words_of s ws]: [ws] are the maximal runs of non-gap characters of [s]. *)
Inductive words_of : str -> list str -> Prop :=
| words_nil : words_of [] []
| words_gap : forall c s ws, gap_char c -> words_of s ws -> words_of (c :: s) ws
| words_word : forall w s ws,
    w <> [] -> Forall (fun c => ~ gap_char c) w ->
    (s = [] \/ exists c s', s = c :: s' /\ gap_char c) ->
    words_of s ws -> words_of (w ++ s) (w :: ws).

(** Words separated by single spaces. *)
Fixpoint unwords (ws : list str) : str :=
  match ws with
  | [] => []
  | [w] => w
  | w :: r => w ++ 32%N :: unwords r
  end.

(** A text in which every gap is one space between two words. *)
Definition canonical (s : str) : Prop :=
  (forall c, In c s -> gap_char c -> c = 32%N) /\
  (forall a b c d, s = a ++ c :: d :: b -> ~ (gap_char c /\ gap_char d)) /\
  (forall c r, s = c :: r -> ~ gap_char c) /\
  (forall c r, s = r ++ [c] -> ~ gap_char c).

(** The number of newlines of a text and the text after the last one. *)
Fixpoint newlines (t : str) : N :=
  match t with
  | [] => 0
  | c :: r => (if N.eqb c 10 then 1 else 0) + newlines r
  end.
(** [last_line t a]: [t] has a newline and [a] is what follows the last one. *)
Definition last_line (t a : str) : Prop :=
  exists b, t = b ++ 10%N :: a /\ ~ In 10%N a.

(** [reaches l t l']: reading [t] from [l] leads to [l']. *)
Definition reaches (l : location) (t : str) (l' : location) : Prop :=
  l_name l' = l_name l /\
  l_lines l' = (l_lines l + newlines t)%N /\
  (~ In 10%N t -> l_columns l' = (l_columns l + N.of_nat (length t))%N) /\
  (forall a, last_line t a -> l_columns l' = (1 + N.of_nat (length a))%N).
