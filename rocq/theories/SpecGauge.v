(** What a markable reader holds of the text it has read, and how it names its marks. *)
From Coq Require Import String List NArith Arith Bool.
From Verif Require Import Base SpecText SpecIo.
Import ListNotations.
Open Scope nat_scope.

(** Where the reader is, its outstanding marks (newest first), how far the source was read,
    how many of the characters before that point are held, and how many were given up
    before. *)
Record gauge := Gauge { g_pos : nat; g_marks : list (N * nat); g_seen : nat; g_held : nat; g_gone : nat }.
Definition g_start : gauge := Gauge 0 [] 0 0 0.

(** Going on by [k] characters.  Under a mark, everything new is held.  Without marks nothing
    new is held, and what is held is given up when its end is reached; but if the reader is
    at its end already it stays. *)
Definition read_on (k : nat) (g : gauge) : gauge :=
  let p := g_pos g + k in
  if k =? 0 then g
  else match g_marks g with
  | _ :: _ => Gauge p (g_marks g) (Nat.max (g_seen g) p) (g_held g + (p - g_seen g)) (g_gone g)
  | [] =>
      if g_pos g =? g_seen g then Gauge p [] p (g_held g) (g_gone g)
      else if p <? g_seen g then Gauge p [] (g_seen g) (g_held g) (g_gone g)
      else Gauge p [] p 0 (g_gone g + g_held g)
  end.
(** The identifier of a mark: the position, less what was given up. *)
Definition mark_id (g : gauge) : N := N.of_nat (g_pos g - g_gone g).
Definition with_mark (g : gauge) : gauge :=
  Gauge (g_pos g) ((mark_id g, g_pos g) :: g_marks g) (g_seen g) (g_held g) (g_gone g).
Definition moved_to (p : nat) (ms : list (N * nat)) (g : gauge) : gauge :=
  Gauge p ms (g_seen g) (g_held g) (g_gone g).
(** Looking at [k] characters and going back. *)
Definition look_on (k : nat) (g : gauge) : gauge := moved_to (g_pos g) (g_marks g) (read_on k (with_mark g)).

(** How many characters of [rest] a comparison with [s] looks at. *)
Fixpoint compared (s rest : str) : nat :=
  match s, rest with
  | a :: s', c :: rest' => if N.eqb c a then S (compared s' rest') else 1
  | _, _ => 0
  end.
(** How many characters an operation takes or looks at. *)
Definition extent (rest : str) (o : op) : nat :=
  match o with
  | OIsEof => Nat.min 1 (length rest)
  | OPrefix s => compared s rest
  | OPeek n | OSkip n => Nat.min n (length rest)
  | OReadAll => length rest
  | _ => 0
  end.
Definition ahead_only (o : op) : Prop := match o with OIsEof | OPrefix _ | OPeek _ => True | _ => False end.
Definition takes_on (o : op) : Prop := match o with OSkip _ | OReadAll => True | _ => False end.
Definition failed (a : answer) : Prop := match a with AFail _ => True | _ => False end.

Inductive gstep (text : str) (g : gauge) : op -> answer -> gauge -> Prop :=
| gs_read : forall n s, gstep text g (ORead n) (AText s) (read_on (length s) g)
| gs_read_fail : forall n e, gstep text g (ORead n) (AFail e) g
| gs_mark : gstep text g OMark (AId (mark_id g)) (with_mark g)
| gs_reset : forall m p newer older, g_marks g = newer ++ (m, p) :: older -> ~ In m (map fst newer) -> p <= g_pos g ->
    gstep text g (OReset m) (ACount (g_pos g - p)) (moved_to p older g)
| gs_unmark : forall m p newer older, g_marks g = newer ++ (m, p) :: older -> ~ In m (map fst newer) ->
    gstep text g (OUnmark m) ADone (moved_to (g_pos g) older g)
| gs_no_mark : forall m o e, o = OReset m \/ o = OUnmark m -> ~ In m (map fst (g_marks g)) -> gstep text g o (AFail e) g
| gs_location : forall l, gstep text g OLocation (AWhere l) g
| gs_look : forall o a, ahead_only o -> ~ failed a -> gstep text g o a (look_on (extent (skipn (g_pos g) text) o) g)
| gs_look_fail : forall o e, ahead_only o -> gstep text g o (AFail e) (read_on (length text - g_pos g) (with_mark g))
| gs_on : forall o a, takes_on o -> gstep text g o a (read_on (extent (skipn (g_pos g) text) o) g).
Inductive gsteps (text : str) : gauge -> list op -> list answer -> gauge -> Prop :=
| gss_nil : forall g, gsteps text g [] [] g
| gss_cons : forall g o a g1 os an g2, gstep text g o a g1 -> gsteps text g1 os an g2 -> gsteps text g (o :: os) (a :: an) g2.

(** The operation takes characters from the source while characters are held for no mark. *)
Definition unguarded (text : str) (g : gauge) (o : op) : Prop :=
  g_marks g = [] /\ 0 < g_held g /\ g_pos g = g_seen g /\ g_pos g < length text /\
  match o with ORead n | OSkip n => 0 < n | OReadAll => True | _ => False end.
