(** The programs of the example in the documentation of the crate, and what the
    constructors of scanners promise. *)
From Coq Require Import String List NArith Arith Bool.
From Verif Require Import Base.
Import ListNotations.
Open Scope nat_scope.

Definition upper (c : N) : Prop := (65 <= c <= 90)%N.
Definition numeric (c : N) : Prop := (48 <= c <= 57)%N.
Definition an_identifier (w : str) : Prop := exists c r, w = c :: r /\ upper c /\ Forall (fun x => upper x \/ numeric x) r.
Definition a_number (w : str) : Prop := exists sign r, w = sign ++ r /\ (sign = [] \/ sign = of_string "-") /\ r <> [] /\ Forall numeric r.

Section Classes.
(** What counts as space, and what may stand in a string. *)
Variables space visible : N -> Prop.
Definition a_gap (w : str) : Prop := w <> [] /\ Forall space w.
Definition a_string (w : str) : Prop := exists v, w = 34%N :: v ++ [34%N] /\ Forall (fun c => visible c /\ c <> 34%N) v.
Definition an_assignment (w : str) : Prop :=
  exists x v, w = x ++ of_string ":=" ++ v /\ an_identifier x /\ (a_number v \/ an_identifier v \/ a_string v).
(** Assignments, each followed by a semicolon and a gap. *)
Inductive assignments : str -> Prop :=
| as_none : assignments []
| as_more : forall a g r, an_assignment a -> a_gap g -> assignments r -> assignments (a ++ of_string ";" ++ g ++ r).
Definition a_program (w : str) : Prop := exists g1 x g2 g3 body,
  w = of_string "PROGRAM" ++ g1 ++ x ++ g2 ++ of_string "BEGIN" ++ g3 ++ body ++ of_string "END." /\
  a_gap g1 /\ an_identifier x /\ a_gap g2 /\ a_gap g3 /\ assignments body.
End Classes.

(** What is seen of an event, its locations left aside ... *)
Inductive item := Opens (rule : str) | Word (text : str) | Closes (rule : str).
Definition within (rule : str) (inside : list item) : list item := Opens rule :: inside ++ [Closes rule].
(** ... and the items of a program: one pair for each rule, letter by letter. *)
Definition letter_items (c : N) : list item := within (of_string "alphabetic character") [Word [c]].
Definition digit_items (c : N) : list item := within (of_string "digit") [Word [c]].
Definition visible_items (c : N) : list item := within (of_string "all characters") [Word [c]].
Definition name_items (c : N) : list item := if N.leb 65 c then letter_items c else digit_items c.
Definition gap_items (g : str) : list item := within (of_string "white space") [Word g].
Definition identifier_items (x : str) : list item := within (of_string "identifier") (flat_map name_items x).
Definition number_items (sign r : str) : list item :=
  within (of_string "number") ((match sign with [] => [] | _ => [Word sign] end) ++ flat_map digit_items r).
Definition string_items (v : str) : list item :=
  within (of_string "string") ([Word [34%N]] ++ flat_map visible_items v ++ [Word [34%N]]).
Section Trees.
Variables space visible : N -> Prop.
Inductive value_tree : str -> list item -> Prop :=
| vt_number : forall sign r, sign = [] \/ sign = of_string "-" -> r <> [] -> Forall numeric r -> value_tree (sign ++ r) (number_items sign r)
| vt_identifier : forall x, an_identifier x -> value_tree x (identifier_items x)
| vt_string : forall v, Forall (fun c => visible c /\ c <> 34%N) v -> value_tree (34%N :: v ++ [34%N]) (string_items v).
Inductive body_tree : str -> list item -> Prop :=
| bt_none : body_tree [] []
| bt_more : forall x v iv g r ir, an_identifier x -> value_tree v iv -> a_gap space g -> body_tree r ir ->
    body_tree ((x ++ of_string ":=" ++ v) ++ of_string ";" ++ g ++ r)
      (within (of_string "assignment") (identifier_items x ++ [Word (of_string ":=")] ++ iv) ++ [Word (of_string ";")] ++ gap_items g ++ ir).
Definition program_tree (w : str) (it : list item) : Prop := exists g1 x g2 g3 body ib,
  w = of_string "PROGRAM" ++ g1 ++ x ++ g2 ++ of_string "BEGIN" ++ g3 ++ body ++ of_string "END." /\
  a_gap space g1 /\ an_identifier x /\ a_gap space g2 /\ a_gap space g3 /\ body_tree body ib /\
  it = within (of_string "program") ([Word (of_string "PROGRAM")] ++ gap_items g1 ++ identifier_items x ++ gap_items g2 ++
    [Word (of_string "BEGIN")] ++ gap_items g3 ++ ib ++ [Word (of_string "END.")]).
End Trees.

(** Outside ASCII, the characters with the Unicode property White_Space. *)
Definition unicode_space (c : N) : Prop :=
  In c [133; 160; 5760; 8232; 8233; 8239; 8287; 12288]%N \/ (8192 <= c <= 8202)%N.
(** The control characters of ASCII, the space, and Unicode's spaces. *)
Definition doc_space (c : N) : Prop := (c <= 32)%N \/ c = 127%N \/ unicode_space c.
Definition doc_visible (c : N) : Prop := (32 <= c)%N /\ c <> 127%N.
