(** What a parse is started on. *)
From Coq Require Import String List NArith Arith Bool.
From Verif Require Import Base Io Ast Syntax Graph Machine SpecText SpecIo IoFacts SpecParse.
Import ListNotations.
Open Scope nat_scope.

(** The text a reader has not delivered yet: the unread part of its buffer and what the
    source still has.  [stand r] is the place where the reader stands. *)
Definition unread (r : mreader) : str :=
  skipn (ub_next (mr_ub r)) (ub_buf (mr_ub r)) ++ concat (s_chunks (mr_src r)).
Definition stand (r : mreader) : pst := Pst (unread r) (ub_loc (mr_ub r)).
(** How the source ends: [None] at the end of the text, [Some e] with a failure. *)
Definition ending_of (r : mreader) : option error := s_end (mr_src r).

(** The readers a caller can have: a new one over any chunks, then any reader operations
    (see SpecIo.v; whatever marks are outstanding) and any parses. *)
Inductive reader : mreader -> Prop :=
| rd_new : forall l0 chunks ending, reader (mr_new l0 (Src chunks ending))
| rd_op : forall debug o r answers r', reader r -> perform debug [o] r = (answers, None, r') -> reader r'
| rd_parse : forall debug g fuel m r, reader r -> reader (snd (parser_parse debug g fuel m r)).

(** [m] is the parser for the rule [id] of the compiled rules [rs]. *)
Definition parser_for (rs : list rule) (cfg : config) (g : graph) (id : str) (m : machine) : Prop :=
  (exists sy, new_syntax rs = Ok sy /\ compile cfg sy = Ok g) /\ no_dollar rs /\
  machine_new g id = Ok (Some m).

(** [rd'] stands where [rd] stands, with the same text ahead and any further text behind
    it. *)
Definition continued_by (rd rd' : mreader) : Prop :=
  exists u, stand rd' = Pst (unread rd ++ u) (p_at (stand rd)).
