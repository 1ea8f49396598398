(** [MarkableReader] over a [CharReader] of the user's: src/io/mod.rs lines 305-369 with
    [r: Box<dyn CharReader>] any reader, given as a type of states and its [read_chars].
    Io.v has the same over chunked sources. *)
From Coq Require Import String List NArith Arith Bool.
From Verif Require Import Base Io OwnReader SpecIo.
Import ListNotations.
Open Scope nat_scope.

Section Wrapped.
Variable V : Type.
(** src/io/mod.rs:37  [read_chars] with a buffer of length [n]: the characters written. *)
Variable give : nat -> V -> res str * V.

(** src/io/mod.rs:307-310  [struct MarkableReader]. *)
Record wrapped := Wrap { w_src : V; w_ub : ubuf }.

(** src/io/mod.rs:313-325, 218-226  [with_location]; [new] is this with [Location::new]. *)
Definition w_new (l : location) (v : V) : wrapped := Wrap v (UB l [] 0 0 []).

Variable debug : bool.

(** src/io/mod.rs:337-351  [read_chars]. *)
Definition w_read_chars (n : nat) : act wrapped str := fun r =>
  if ub_remains (w_ub r) then
    let '(out, u) := ub_read n (w_ub r) in (Ok out, Wrap (w_src r) u)
  else
    match give n (w_src r) with
    | (Ok [], s) => (Ok [], Wrap s (w_ub r))
    | (Ok out, s) =>
        match ub_append debug out (w_ub r) with
        | Ok u => (Ok out, Wrap s u)
        | Err e => (Err e, Wrap s (w_ub r))
        | Panic p => (Panic p, Wrap s (w_ub r))
        | OutOfFuel => (OutOfFuel, Wrap s (w_ub r))
        end
    | (Err e, s) =>
        (Err (Error_ (ub_loc (w_ub r)) (MWrapped (e_loc e) (e_msg e))), Wrap s (w_ub r))
    | (Panic p, s) => (Panic p, Wrap s (w_ub r))
    | (OutOfFuel, s) => (OutOfFuel, Wrap s (w_ub r))
    end.

Definition w_with_ub {A} (f : ubuf -> res (A * ubuf)) : act wrapped A := fun r =>
  match f (w_ub r) with
  | Ok (a, u) => (Ok a, Wrap (w_src r) u)
  | Err e => (Err e, r)
  | Panic p => (Panic p, r)
  | OutOfFuel => (OutOfFuel, r)
  end.

(** src/io/mod.rs:355-369  [location], [mark], [reset_to_mark], [unmark]; the other methods
    have their defaults. *)
Definition w_required : required wrapped :=
  Required wrapped w_read_chars (fun r => ub_loc (w_ub r)) (w_with_ub (ub_mark debug)) (fun m => w_with_ub (ub_revert m))
    (fun m => w_with_ub (fun u => let? (_, u') := ub_remove_mark m u in Ok (tt, u'))).
Definition w_methods : methods wrapped := with_defaults wrapped w_required.
End Wrapped.

(** ** Calls of the methods of a reader of one's own *)
Definition said {A U : Type} (f : A -> answer) (m : act U A) : act U answer := fun u =>
  let '(a, u') := m u in
  (match a with Ok s => Ok (f s) | Err e => Ok (AFail e) | Panic p => Panic p | OutOfFuel => OutOfFuel end, u').
(** One call; [read_all] (src/io/mod.rs:44-55) is left out. *)
Definition own_call {U : Type} (q : required U) (ops : methods U) (o : op) : act U answer :=
  match o with
  | ORead n => said AText (q_read_chars U q n)
  | OMark => said AId (u_mark U ops)
  | OReset m => said ACount (u_reset U ops m)
  | OUnmark m => said (fun _ => ADone) (u_unmark U ops m)
  | OLocation => said AWhere (own_location U ops)
  | OIsEof => said ABool (u_is_eof U ops)
  | OPrefix w => said ABool (u_prefix U ops w)
  | OPeek n => said AText (u_peek U ops n)
  | OSkip n => said ACount (u_skip U ops n)
  | OReadAll => uno_fuel U
  end.
(** Calls one after the other, until one panics; an error is an answer. *)
Fixpoint own_calls {U : Type} (q : required U) (ops : methods U) (os : list op) (u : U) : list answer * option (res answer) * U :=
  match os with
  | [] => ([], None, u)
  | o :: os =>
      match own_call q ops o u with
      | (Ok a, u1) => let '(l, e, u2) := own_calls q ops os u1 in (a :: l, e, u2)
      | (x, u1) => ([], Some x, u1)
      end
  end.
