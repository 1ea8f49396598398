(** What is asked of a reader of one's own (OwnReader.v): it serves a text. *)
From Coq Require Import String List NArith Arith Bool.
From Verif Require Import Base Io OwnReader SpecText SpecIo.
Import ListNotations.
Open Scope nat_scope.

Section Serves.
Variable U : Type.
(** The text, how it ends ([Some e]: the reader fails there), the location of the first
    character. *)
Variable text : str.
Variable ending : option error.
Variable l0 : location.
(** [at_ u c]: in the state [u] the reader stands at the position [c_pos c] of the text, and
    at least the marks [c_marks c], the newest first, can be used. *)
Variable at_ : U -> cursor -> Prop.

(** The failure of a reader is an error at the end of the text that tells the error [e]. *)
Definition tells_of (e x : error) : Prop := exists l, at_pos text l0 (length text) l /\ x = Error_ l (MWrapped (e_loc e) (e_msg e)).
(** After a failure while looking ahead the reader stands at the end.  It may have left a mark
    where it stood. *)
Definition stopped (c c' : cursor) : Prop := c_pos c' = length text /\
  (c_marks c' = c_marks c \/ exists m, c_marks c' = (m, c_pos c) :: c_marks c /\ forall p, In (m, p) (c_marks c) -> p = c_pos c).

(** The methods every reader defines.  A mark may be named at will, but not as one that can
    be used and stands for another position.  Going back to a mark and releasing it may end
    it and the newer ones. *)
Record serves (q : required U) : Prop := {
  sv_location : forall u c, at_ u c -> at_pos text l0 (c_pos c) (q_location U q u);
  sv_mark : forall u c, at_ u c -> exists m u', q_mark U q u = (Ok m, u') /\
    (forall p, In (m, p) (c_marks c) -> p = c_pos c) /\ at_ u' (Cur (c_pos c) ((m, c_pos c) :: c_marks c));
  sv_reset : forall u c newer m p older, at_ u c -> c_marks c = newer ++ (m, p) :: older -> ~ In m (map fst newer) ->
    exists u', q_reset U q m u = (Ok (c_pos c - p), u') /\ at_ u' (Cur p older);
  sv_unmark : forall u c newer m p older, at_ u c -> c_marks c = newer ++ (m, p) :: older -> ~ In m (map fst newer) ->
    exists u', q_unmark U q m u = (Ok tt, u') /\ at_ u' (Cur (c_pos c) older);
  (** A read gives some of the next characters, none only at the end; there it may fail. *)
  sv_read : forall u c n, at_ u c -> 0 < n -> ending = None \/ left_ text c <> [] -> exists w u' rest, q_read_chars U q n u = (Ok w, u') /\
    left_ text c = w ++ rest /\ length w <= n /\ (w = [] -> rest = []) /\ at_ u' (Cur (c_pos c + length w) (c_marks c));
  sv_read_fail : forall u c n e, at_ u c -> c_pos c = length text -> 0 < n -> ending = Some e -> exists x u', q_read_chars U q n u = (Err x, u') /\
    tells_of e x /\ at_ u' c }.

(** The same for the methods a parse uses.  Where the text ends with a failure they fail if
    they have to look beyond it ([beyond], SpecIo.v). *)
Record serves_parse (ops : methods U) : Prop := {
  sp_location : forall u c, at_ u c -> at_pos text l0 (c_pos c) (u_location U ops u);
  sp_mark : forall u c, at_ u c -> exists m u', u_mark U ops u = (Ok m, u') /\
    (forall p, In (m, p) (c_marks c) -> p = c_pos c) /\ at_ u' (Cur (c_pos c) ((m, c_pos c) :: c_marks c));
  sp_reset : forall u c newer m p older, at_ u c -> c_marks c = newer ++ (m, p) :: older -> ~ In m (map fst newer) ->
    exists u', u_reset U ops m u = (Ok (c_pos c - p), u') /\ at_ u' (Cur p older);
  sp_unmark : forall u c newer m p older, at_ u c -> c_marks c = newer ++ (m, p) :: older -> ~ In m (map fst newer) ->
    exists u', u_unmark U ops m u = (Ok tt, u') /\ at_ u' (Cur (c_pos c) older);
  sp_read : forall u c, at_ u c -> ending = None \/ left_ text c <> [] -> exists u', u_read U ops u = (Ok (hd_error (left_ text c)), u') /\
    at_ u' (Cur (c_pos c + length (firstn 1 (left_ text c))) (c_marks c));
  sp_read_fail : forall u c e, at_ u c -> c_pos c = length text -> ending = Some e -> exists x u', u_read U ops u = (Err x, u') /\
    tells_of e x /\ at_ u' c;
  sp_is_eof : forall u c, at_ u c -> ending = None \/ ~ beyond (left_ text c) OIsEof -> exists b u', u_is_eof U ops u = (Ok b, u') /\
    (b = true <-> left_ text c = []) /\ at_ u' c;
  sp_is_eof_fail : forall u c e, at_ u c -> c_pos c <= length text -> ending = Some e -> beyond (left_ text c) OIsEof ->
    exists x u' c', u_is_eof U ops u = (Err x, u') /\ tells_of e x /\ at_ u' c' /\ stopped c c';
  sp_prefix : forall u c w, at_ u c -> ending = None \/ ~ beyond (left_ text c) (OPrefix w) -> exists b u', u_prefix U ops w u = (Ok b, u') /\
    (b = true <-> exists rest, left_ text c = w ++ rest) /\ at_ u' c;
  sp_prefix_fail : forall u c w e, at_ u c -> c_pos c <= length text -> ending = Some e -> beyond (left_ text c) (OPrefix w) ->
    exists x u' c', u_prefix U ops w u = (Err x, u') /\ tells_of e x /\ at_ u' c' /\ stopped c c';
  sp_peek : forall u c n, at_ u c -> ending = None \/ ~ beyond (left_ text c) (OPeek n) ->
    exists u', u_peek U ops n u = (Ok (firstn n (left_ text c)), u') /\ at_ u' c;
  sp_peek_fail : forall u c n e, at_ u c -> c_pos c <= length text -> ending = Some e -> beyond (left_ text c) (OPeek n) ->
    exists x u' c', u_peek U ops n u = (Err x, u') /\ tells_of e x /\ at_ u' c' /\ stopped c c';
  sp_skip : forall u c n, at_ u c -> ending = None \/ n <= length (left_ text c) ->
    exists u', u_skip U ops n u = (Ok (Nat.min n (length (left_ text c))), u') /\
    at_ u' (Cur (c_pos c + Nat.min n (length (left_ text c))) (c_marks c));
  sp_skip_fail : forall u c n e, at_ u c -> c_pos c <= length text -> ending = Some e -> length (left_ text c) < n ->
    exists x u', u_skip U ops n u = (Err x, u') /\ tells_of e x /\ at_ u' (Cur (length text) (c_marks c)) }.

(** The position and the marks of a state can have come about: a newer mark does not stand
    before an older one, marks of one name stand at one position. *)
Definition orderly (c : cursor) : Prop := c_pos c <= length text /\
  forall newer m p older, c_marks c = newer ++ (m, p) :: older ->
    p <= c_pos c /\ forall m' q, In (m', q) older -> q <= p /\ (m' = m -> q = p).
End Serves.
