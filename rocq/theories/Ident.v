(** Model of the meta-identifier helpers of src/lib.rs. *)
From Coq Require Import List NArith Bool.
From Verif Require Import Base.
Import ListNotations.

(** src/lib.rs:458-468  the loop of [normalized_meta_identifier]: the characters
    pushed from here on and the final [whitespace_right_before]. *)
Fixpoint norm_loop (ws : bool) (s : str) : str * bool :=
  match s with
  | [] => ([], ws)
  | c :: r =>
      if is_gap c then
        if negb ws then
          let '(b, w) := norm_loop true r in (c_space :: b, w)
        else norm_loop ws r
      else
        let '(b, w) := norm_loop false r in (c :: b, w)
  end.

(** src/lib.rs:455-473  [normalized_meta_identifier]. *)
Definition normalized (s : str) : str :=
  let '(b, w) := norm_loop true s in
  if w && negb (match b with [] => true | _ => false end)
  then firstn (length b - 1) b else b.

(** src/lib.rs:486-491  [keyed_meta_identifier]. *)
Definition keyed (s : str) : str := filter (fun c => negb (is_gap c)) s.
