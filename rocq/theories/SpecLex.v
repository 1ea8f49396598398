(** Clients of the lexer: sequences of calls, as seen from outside. *)
From Coq Require Import String List NArith Arith Bool.
From Verif Require Import Base Tokenizer Ast Lex.
Import ListNotations.

(** A piece of text handed over by [push] or by [push_str]. *)
Inductive fragment := FChar (c : char) | FStr (s : str).
Definition frag_text (f : fragment) : str :=
  match f with FChar c => [c] | FStr s => s end.
Definition frags_text (fs : list fragment) : str := flat_map frag_text fs.

(** The call for one fragment; the rules it returns. *)
Definition call (lx : lexer) (f : fragment) : lexer * res (list rule) :=
  match f with
  | FStr s => lx_push_str lx s
  | FChar c => let '(lx', r) := lx_push lx c in (lx', let? o := r in Ok (opt_list o))
  end.

(** The calls for a list of fragments, stopping at the first failure. *)
Fixpoint feed (lx : lexer) (fs : list fragment) : lexer * res (list rule) :=
  match fs with
  | [] => (lx, Ok [])
  | f :: r =>
      match call lx f with
      | (lx1, Ok rs1) =>
          match feed lx1 r with
          | (lx2, Ok rs2) => (lx2, Ok (rs1 ++ rs2))
          | x => x
          end
      | x => x
      end
  end.

(** A fresh lexer, the fragments, then [flush]: all the rules returned. *)
Definition lex_fragments (name : str) (max : N) (fs : list fragment) : res (list rule) :=
  let '(lx, r) := feed (lx_new name max) fs in
  let? rs := r in
  let '(_, r2) := lx_flush lx in
  let? o := r2 in
  Ok (rs ++ opt_list o).

(** Arbitrary call histories, failed calls included. *)
Inductive hcall := HPush (c : char) | HPushStr (s : str) | HFlush | HReset.
Definition hstep (lx : lexer) (h : hcall) : lexer :=
  match h with
  | HPush c => fst (lx_push lx c)
  | HPushStr s => fst (lx_push_str lx s)
  | HFlush => fst (lx_flush lx)
  | HReset => lx_reset lx
  end.
Definition history (lx : lexer) (hs : list hcall) : lexer := fold_left hstep hs lx.

(** What a call returns. *)
Inductive hresult := ROpt (r : res (option rule)) | RList (r : res (list rule)) | RNone.
Definition hobserve (lx : lexer) (h : hcall) : hresult :=
  match h with
  | HPush c => ROpt (snd (lx_push lx c))
  | HPushStr s => RList (snd (lx_push_str lx s))
  | HFlush => ROpt (snd (lx_flush lx))
  | HReset => RNone
  end.
(** Everything a client observes of a list of calls. *)
Fixpoint observations (lx : lexer) (hs : list hcall) : list hresult :=
  match hs with
  | [] => []
  | h :: r => hobserve lx h :: observations (hstep lx h) r
  end.

(** The tokenizer alone: a fresh unlimited tokenizer, the pieces, then [flush]. *)
Fixpoint tk_feed (t : tokenizer) (ss : list str) : tokenizer * res (list token) :=
  match ss with
  | [] => (t, Ok [])
  | s :: r =>
      match tk_push_str t s with
      | (t1, Ok ts1) =>
          match tk_feed t1 r with
          | (t2, Ok ts2) => (t2, Ok (ts1 ++ ts2))
          | x => x
          end
      | x => x
      end
  end.
Definition tokens_of (name : str) (ss : list str) : res (list token) :=
  let '(t, r) := tk_feed (tk_new name 0) ss in
  let? ts := r in
  let '(_, r2) := tk_flush t in
  let? ts2 := r2 in
  Ok (ts ++ ts2).

(** States reached from a fresh lexer by calls that all succeed, and [reset]. *)
Inductive reached (name : str) (max : N) : lexer -> Prop :=
| reached_new : reached name max (lx_new name max)
| reached_call : forall lx f lx' rs,
    reached name max lx -> call lx f = (lx', Ok rs) -> reached name max lx'
| reached_flush : forall lx lx' o,
    reached name max lx -> lx_flush lx = (lx', Ok o) -> reached name max lx'
| reached_reset : forall hs, reached name max (lx_reset (history (lx_new name max) hs)).
