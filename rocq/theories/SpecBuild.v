(** Debug builds and release builds: what a client sees of either. *)
From Coq Require Import String List NArith Arith Bool.
From Verif Require Import Base Tokenizer Ast Lex LexRelease SpecLex SpecIo.
Import ListNotations.
Open Scope nat_scope.

(** Calls on a lexer of a release build (as [hstep], [hobserve] and [observations] for a debug
    build). *)
Definition release_step (lx : lexer) (h : hcall) : lexer :=
  match h with
  | HPush c => fst (lx_push_release lx c)
  | HPushStr s => fst (lx_push_str_release lx s)
  | HFlush => fst (lx_flush_release lx)
  | HReset => lx_reset lx
  end.
Definition release_observe (lx : lexer) (h : hcall) : hresult :=
  match h with
  | HPush c => ROpt (snd (lx_push_release lx c))
  | HPushStr s => RList (snd (lx_push_str_release lx s))
  | HFlush => ROpt (snd (lx_flush_release lx))
  | HReset => RNone
  end.
Fixpoint release_observations (lx : lexer) (hs : list hcall) : list hresult :=
  match hs with
  | [] => []
  | h :: r => release_observe lx h :: release_observations (release_step lx h) r
  end.
Definition release_history (lx : lexer) (hs : list hcall) : lexer := fold_left release_step hs lx.

(** A call that returned, and one that a failing debug assertion stopped. *)
Definition returned (o : hresult) : Prop :=
  match o with ROpt (Ok _) | RList (Ok _) | RNone => True | _ => False end.
Inductive stopped : hresult -> Prop :=
| st_opt : stopped (ROpt (Panic PDebugAssert))
| st_list : stopped (RList (Panic PDebugAssert)).

(** A client that calls [reset] after a call that failed: [obs] is what the calls [hs] gave. *)
Fixpoint careful (hs : list hcall) (obs : list hresult) : Prop :=
  match hs, obs with
  | _ :: hs', o :: obs' =>
      (returned o \/ match hs' with [] => True | h :: _ => h = HReset end) /\ careful hs' obs'
  | _, _ => True
  end.

(** The error a call gave. *)
Definition gave (o : hresult) (e : error) : Prop := o = ROpt (Err e) \/ o = RList (Err e).

(** Messages about characters, which the tokenizer gives, and the one about a bracket that is not
    closed. *)
Inductive about_characters : msg -> Prop :=
| ac_too_long : forall a b c, about_characters (MTooLong a b c)
| ac_ambiguous_comment : about_characters MAmbiguousComment
| ac_colon : about_characters MColon
| ac_end_comment : about_characters MEndCommentNotOpened
| ac_undefined_char : forall c, about_characters (MUndefinedChar c)
| ac_term_bad : forall c, about_characters (MTermBadChar c)
| ac_term_open : forall c, about_characters (MTermNotClosed c)
| ac_term_empty : about_characters MTermEmpty
| ac_spec_bad : forall c, about_characters (MSpecBadChar c)
| ac_spec_open : about_characters MSpecNotClosed
| ac_comment_open : about_characters MCommentNotClosed
| ac_comment_bad : forall c, about_characters (MCommentBadChar c).
Definition about_closing (m : msg) : Prop := exists n s, m = MNotClosed n s.

(** A result that brings no rule: nothing, an error about characters, or the failure of the
    assertion of [flush] that is kept in release builds. *)
Inductive silent : hresult -> Prop :=
| si_list : silent (RList (Ok []))
| si_opt : silent (ROpt (Ok None))
| si_characters : forall o e, gave o e -> about_characters (e_msg e) -> silent o
| si_flush : silent (ROpt (Panic PAssert)).
