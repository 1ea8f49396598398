(** Specification of a markable reader: a cursor over a text. *)
From Coq Require Import String List NArith Arith Bool.
From Verif Require Import Base SpecText.
Import ListNotations.
Open Scope nat_scope.

(** The cursor position and the outstanding marks (newest first), each with the
    position where it was taken. *)
Record cursor := Cur { c_pos : nat; c_marks : list (N * nat) }.

Inductive op :=
| ORead (n : nat) | OMark | OReset (m : N) | OUnmark (m : N) | OLocation
| OIsEof | OPrefix (s : str) | OPeek (n : nat) | OSkip (n : nat) | OReadAll.
Inductive answer :=
| AText (s : str) | AId (m : N) | ACount (n : nat) | ADone | AWhere (l : location)
| ABool (b : bool)
| AFail (e : error).

Section Cursor.
(** The text, how it ends ([Some e]: with a failure), the location where it starts. *)
Variable text : str.
Variable ending : option error.
Variable l0 : location.

Definition at_pos (p : nat) (l : location) : Prop := reaches l0 (firstn p text) l.

(** The text from the cursor on. *)
Definition left_ (c : cursor) : str := skipn (c_pos c) text.

(** The look-ahead operations, and the fact that one of them has to look beyond the
    end of the text. *)
Inductive beyond (rest : str) : op -> Prop :=
| by_eof : rest = [] -> beyond rest OIsEof
| by_prefix : forall x s, beyond rest (OPrefix (rest ++ x :: s))
| by_peek : forall n, length rest < n -> beyond rest (OPeek n).

(** What may be answered to an operation, and the cursor afterwards. *)
Inductive cstep : cursor -> op -> answer -> cursor -> Prop :=
(** A read delivers the next characters: at least one, at most [n]. *)
| cs_read : forall c n s rest, s <> [] -> length s <= n ->
    skipn (c_pos c) text = s ++ rest ->
    cstep c (ORead n) (AText s) (Cur (c_pos c + length s) (c_marks c))
| cs_read_nothing : forall c, cstep c (ORead 0) (AText []) c
| cs_read_end : forall c n, skipn (c_pos c) text = [] -> ending = None ->
    cstep c (ORead n) (AText []) c
| cs_read_fail : forall c n e l, skipn (c_pos c) text = [] -> ending = Some e ->
    at_pos (c_pos c) l ->
    cstep c (ORead n) (AFail (Error_ l (MWrapped (e_loc e) (e_msg e)))) c
(** Two outstanding marks have the same identifier iff they mark the same place. *)
| cs_mark : forall c m,
    (forall m' p, In (m', p) (c_marks c) -> (m' = m <-> p = c_pos c)) ->
    cstep c OMark (AId m) (Cur (c_pos c) ((m, c_pos c) :: c_marks c))
(** A reset goes back to the mark and releases it and the newer ones. *)
| cs_reset : forall c m p newer older k,
    c_marks c = newer ++ (m, p) :: older -> ~ In m (map fst newer) ->
    p + k = c_pos c ->
    cstep c (OReset m) (ACount k) (Cur p older)
| cs_unmark : forall c m p newer older,
    c_marks c = newer ++ (m, p) :: older -> ~ In m (map fst newer) ->
    cstep c (OUnmark m) ADone (Cur (c_pos c) older)
| cs_no_such_mark : forall c m o e, o = OReset m \/ o = OUnmark m ->
    ~ In m (map fst (c_marks c)) -> at_pos (c_pos c) (e_loc e) ->
    cstep c o (AFail e) c
| cs_location : forall c l, at_pos (c_pos c) l -> cstep c OLocation (AWhere l) c
(** Looking ahead leaves the cursor alone. *)
| cs_is_eof : forall c b, ending = None \/ ~ beyond (left_ c) OIsEof ->
    (b = true <-> left_ c = []) -> cstep c OIsEof (ABool b) c
| cs_prefix : forall c s b, ending = None \/ ~ beyond (left_ c) (OPrefix s) ->
    (b = true <-> exists rest, left_ c = s ++ rest) -> cstep c (OPrefix s) (ABool b) c
| cs_peek : forall c n s rest, ending = None \/ ~ beyond (left_ c) (OPeek n) ->
    left_ c = s ++ rest -> length s <= n -> (length s < n -> rest = []) ->
    cstep c (OPeek n) (AText s) c
(** ... except when the source fails: then the mark placed for it stays, and the
    cursor is at the end of what could be read. *)
| cs_ahead_fail : forall c o e l m, ending = Some e -> beyond (left_ c) o ->
    at_pos (length text) l ->
    (forall m' p, In (m', p) (c_marks c) -> (m' = m <-> p = c_pos c)) ->
    cstep c o (AFail (Error_ l (MWrapped (e_loc e) (e_msg e))))
          (Cur (length text) ((m, c_pos c) :: c_marks c))
(** Skipping and reading everything. *)
| cs_skip : forall c n s rest, ending = None \/ n <= length (left_ c) ->
    left_ c = s ++ rest -> length s <= n -> (length s < n -> rest = []) ->
    cstep c (OSkip n) (ACount (length s)) (Cur (c_pos c + length s) (c_marks c))
| cs_read_all : forall c, ending = None ->
    cstep c OReadAll (AText (left_ c)) (Cur (length text) (c_marks c))
| cs_to_end_fail : forall c o e l, ending = Some e -> at_pos (length text) l ->
    (o = OReadAll \/ exists n, o = OSkip n /\ length (left_ c) < n) ->
    cstep c o (AFail (Error_ l (MWrapped (e_loc e) (e_msg e))))
          (Cur (length text) (c_marks c)).

(** A history of operations and the answers so far. *)
Inductive csteps : cursor -> list op -> list answer -> cursor -> Prop :=
| css_nil : forall c, csteps c [] [] c
| css_cons : forall c o a c1 os answers c2,
    cstep c o a c1 -> csteps c1 os answers c2 -> csteps c (o :: os) (a :: answers) c2.
End Cursor.

(** What an operation that looks ahead, skips or reads everything must answer when
    [rest] is the text left, and how far it moves. *)
Inductive tells (rest : str) : op -> answer -> nat -> Prop :=
| tl_eof_yes : rest = [] -> tells rest OIsEof (ABool true) 0
| tl_eof_no : rest <> [] -> tells rest OIsEof (ABool false) 0
| tl_prefix_yes : forall s more, rest = s ++ more -> tells rest (OPrefix s) (ABool true) 0
| tl_prefix_no : forall s, (forall more, rest <> s ++ more) -> tells rest (OPrefix s) (ABool false) 0
| tl_peek : forall n, tells rest (OPeek n) (AText (firstn n rest)) 0
| tl_skip : forall n, tells rest (OSkip n) (ACount (Nat.min n (length rest))) (Nat.min n (length rest))
| tl_read_all : tells rest OReadAll (AText rest) (length rest).
Definition looks (o : op) : Prop :=
  match o with OIsEof | OPrefix _ | OPeek _ | OSkip _ | OReadAll => True | _ => False end.
